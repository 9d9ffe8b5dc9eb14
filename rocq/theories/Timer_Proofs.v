(** Simulation between the Timer model and its specification. *)
From Verif Require Import Timer_Model Timer_Spec.
From Coq Require Import Lia Lqa.
Import ListNotations.
Open Scope nat_scope.

(** ** statistics *)
Definition accOf (l : list Q) : acc := fold_left accAdd l newAcc.
Lemma accOf_snoc : forall l x, accOf (l ++ [x]) = accAdd (accOf l) x.
Proof. intros. unfold accOf. now rewrite fold_left_app. Qed.
Lemma qsum_app : forall a b, (qsum (a ++ b) == qsum a + qsum b)%Q.
Proof. induction a; intros; simpl; [lra|rewrite IHa; lra]. Qed.
Lemma acc_cnt : forall l, a_cnt (accOf l) = length l.
Proof.
  induction l using rev_ind; auto. rewrite accOf_snoc, app_length. simpl. lia.
Qed.
Lemma acc_sum : forall l, (a_sum (accOf l) == qsum l)%Q.
Proof.
  induction l using rev_ind; [reflexivity|]. rewrite accOf_snoc, qsum_app. simpl. rewrite IHl. lra.
Qed.
Lemma acc_sum2 : forall l, (a_sum2 (accOf l) == qsum (map (fun x => x * x) l))%Q.
Proof.
  induction l using rev_ind; [reflexivity|]. rewrite accOf_snoc, map_app, qsum_app. simpl. rewrite IHl. lra.
Qed.
Lemma acc_min : forall l, l <> [] -> opt_is (is_min l) (a_min (accOf l)).
Proof.
  induction l using rev_ind; [congruence|]. intros _. rewrite accOf_snoc. cbn [accAdd a_min].
  destruct l as [|y l].
  - cbn. split; [now left|]. intros z [->|[]]. lra.
  - specialize (IHl ltac:(congruence)). destruct (a_min (accOf (y :: l))) as [m|]; [|destruct IHl].
    cbn [opt_is] in *. destruct IHl as [I M].
    destruct (Qlt_le_dec x m).
    + split; [apply in_or_app; right; now left|]. intros z Hz. apply in_app_or in Hz as [Hz|[->|[]]]; [|lra].
      specialize (M z Hz). lra.
    + split; [apply in_or_app; now left|]. intros z Hz. apply in_app_or in Hz as [Hz|[->|[]]]; auto.
Qed.
Lemma acc_max : forall l, l <> [] -> opt_is (is_max l) (a_max (accOf l)).
Proof.
  induction l using rev_ind; [congruence|]. intros _. rewrite accOf_snoc. cbn [accAdd a_max].
  destruct l as [|y l].
  - cbn. split; [now left|]. intros z [->|[]]. lra.
  - specialize (IHl ltac:(congruence)). destruct (a_max (accOf (y :: l))) as [m|]; [|destruct IHl].
    cbn [opt_is] in *. destruct IHl as [I M].
    destruct (Qlt_le_dec m x).
    + split; [apply in_or_app; right; now left|]. intros z Hz. apply in_app_or in Hz as [Hz|[->|[]]]; [|lra].
      specialize (M z Hz). lra.
    + split; [apply in_or_app; now left|]. intros z Hz. apply in_app_or in Hz as [Hz|[->|[]]]; auto.
Qed.
Lemma tl_skipn : forall A n (l : list A), tl (skipn n l) = skipn (S n) l.
Proof.
  induction n; intros [|x l]; auto. simpl skipn at 1. rewrite IHn. reflexivity.
Qed.
Lemma acc_win : forall l, a_win (accOf l) = last50 l.
Proof.
  induction l using rev_ind; [reflexivity|]. rewrite accOf_snoc. cbn [accAdd a_win]. rewrite IHl.
  unfold last50, window_size. rewrite !app_length, skipn_length. cbn [length].
  destruct (Nat.leb_spec (length l - (length l - 50) + 1) 50).
  - replace (length l + 1 - 50) with 0 by lia. replace (length l - 50) with 0 by lia. reflexivity.
  - assert (E : tl (skipn (length l - 50) l ++ [x]) = tl (skipn (length l - 50) l) ++ [x]).
    { destruct (skipn (length l - 50) l) eqn:K; auto.
      exfalso. apply (f_equal (@length Q)) in K. rewrite skipn_length in K. simpl in K. lia. }
    rewrite E, tl_skipn. replace (length l + 1 - 50) with (S (length l - 50)) by lia.
    rewrite skipn_app. f_equal. now replace (S (length l - 50) - length l) with 0 by lia.
Qed.

Lemma qn_pos : forall l, l <> [] -> (0 < qn l)%Q.
Proof. intros [|x l] H; [congruence|]. unfold qn, Qlt. simpl. lia. Qed.
Lemma qn_cons : forall x l, (qn (x :: l) == qn l + 1)%Q.
Proof.
  intros. unfold qn. cbn [length]. rewrite Nat2Z.inj_succ, <- Z.add_1_r, inject_Z_plus. reflexivity.
Qed.
Lemma var_expand : forall l c,
  (qsum (map (fun x => (x - c) * (x - c)) l) ==
   qsum (map (fun x => x * x) l) - 2 * c * qsum l + qn l * c * c)%Q.
Proof.
  induction l; intros; [unfold qn; simpl; ring|]. cbn [map]. rewrite qn_cons. cbn [qsum fold_right].
  fold (qsum (map (fun x => ((x - c) * (x - c))%Q) l)). rewrite IHl. unfold qsum. ring.
Qed.
Lemma Qsum_qsum : forall l, Qsum l = qsum l. Proof. reflexivity. Qed.

Lemma stats_accOf : forall l, stats_of (accOf l) l.
Proof.
  intros l. unfold stats_of, getNumSamples, getTotalSeconds, getMeanSeconds, getVarianceSeconds, getMinSeconds,
    getMaxSeconds, getHz. unfold getMeanSeconds.
  split; [apply acc_cnt|]. split; [apply acc_sum|]. split; [intros ->; repeat split; reflexivity|].
  split.
  - intros Hl. rewrite acc_cnt. destruct (Nat.eqb_spec (length l) 0) as [E|E].
    { destruct l; [congruence|discriminate]. }
    split; [|split; [|split; [now apply acc_min|now apply acc_max]]]; cbn [opt_is];
      unfold nQ; fold (qn l); rewrite acc_sum.
    + reflexivity.
    + rewrite acc_sum2. unfold qvar. rewrite var_expand. pose proof (qn_pos l Hl). field. lra.
  - intros Hl Hz. rewrite acc_win. change Qsum with qsum. fold (qsum (last50 l)) in Hz |- *.
    assert (L : last50 l <> []).
    { unfold last50. intros K. apply (f_equal (@length Q)) in K. rewrite skipn_length in K.
      destruct l; [congruence|]. cbn [length] in K. destruct (length l); cbn [length] in *; lia. }
    destruct (Nat.eqb_spec (length (last50 l)) 0) as [E|E].
    { destruct (last50 l); [congruence|discriminate]. }
    destruct (Qeq_bool (qsum (last50 l)) 0) eqn:Z; [apply Qeq_bool_iff in Z; contradiction|].
    cbn [orb opt_is]. unfold nQ. fold (qn (last50 l)). pose proof (qn_pos _ L). field. split; [lra|exact Hz].
Qed.

(** ** the simulation relation *)
Definition obj_ok (n : nat) (o : option timer) (l : option (nat * option Z)) : Prop :=
  match o, l with
  | None, None => True
  | Some t, Some (h, r) => m_handle t = h /\ h < n /\ r = (if m_timing t then Some (m_time t) else None)
  | _, _ => False
  end.
Record Sim (s : state) (p : spec) : Prop := mkSim {
  sim_map : tagMap s = combine (reg p) (seq 0 (length (reg p)));
  sim_nd : NoDup (reg p);
  sim_len : length (timers s) = length (reg p);
  sim_acc : forall h, h < length (reg p) -> nth_error (timers s) h = Some (accOf (samples p h));
  sim_out : forall h, length (reg p) <= h -> samples p h = [];
  sim_obj : forall i, obj_ok (length (reg p)) (lookup_obj (objs s) i) (live p i) }.

Lemma Sim0 : Sim initSt spec0.
Proof.
  constructor; auto; simpl; intros; [constructor|lia|exact I].
Qed.

Lemma bytes_eqb_eq' : forall a b, bytes_eqb a b = true <-> a = b.
Proof. exact bytes_eqb_eq. Qed.

Lemma pos_lt : forall t l, In t l -> pos t l < length l.
Proof.
  induction l; simpl; intros H; [destruct H|]. destruct (tag_eq_dec t a); [lia|]. destruct H; [congruence|].
  specialize (IHl H). lia.
Qed.
Lemma pos_nth : forall t l, In t l -> nth_error l (pos t l) = Some t.
Proof.
  induction l; simpl; intros H; [destruct H|]. destruct (tag_eq_dec t a); [subst; auto|]. destruct H; [congruence|auto].
Qed.
Lemma pos_app_l : forall t l l', In t l -> pos t (l ++ l') = pos t l.
Proof.
  induction l; simpl; intros l' H; [destruct H|]. destruct (tag_eq_dec t a); auto. destruct H; [congruence|]. f_equal; auto.
Qed.
Lemma pos_app_r : forall t l, ~ In t l -> pos t (l ++ [t]) = length l.
Proof.
  induction l; simpl; intros H. { destruct (tag_eq_dec t t); congruence. }
  destruct (tag_eq_dec t a); [subst; tauto|]. f_equal; auto.
Qed.

Lemma lookup_tag_combine : forall t l k,
  lookup_tag (combine l (seq k (length l))) t = if in_dec tag_eq_dec t l then Some (k + pos t l) else None.
Proof.
  induction l; intros k; [reflexivity|]. cbn [length seq combine lookup_tag pos].
  destruct (bytes_eqb t a) eqn:E.
  - apply bytes_eqb_eq' in E; subst. destruct (in_dec tag_eq_dec a (a :: l)) as [_|N]; [|destruct N; now left].
    destruct (tag_eq_dec a a); [|congruence]. f_equal; lia.
  - assert (NE : t <> a) by (intros ->; rewrite bytes_eqb_refl in E; discriminate).
    rewrite IHl. destruct (tag_eq_dec t a); [congruence|].
    destruct (in_dec tag_eq_dec t l) as [I|I]; destruct (in_dec tag_eq_dec t (a :: l)) as [J|J].
    + f_equal; lia.
    + exfalso; apply J; now right.
    + exfalso; destruct J; [congruence|contradiction].
    + reflexivity.
Qed.
Lemma lookup_handle_combine : forall l k h,
  lookup_handle (combine l (seq k (length l))) (k + h) = nth_error l h.
Proof.
  induction l; intros k h; [destruct h; reflexivity|]. cbn [length seq combine lookup_handle].
  destruct (Nat.eqb_spec k (k + h)).
  - replace h with 0 by lia. reflexivity.
  - destruct h; [lia|]. replace (k + S h) with (S k + h) by lia. apply IHl.
Qed.
Lemma combine_snoc : forall (l : list tag) t,
  combine (l ++ [t]) (seq 0 (length (l ++ [t]))) = combine l (seq 0 (length l)) ++ [(t, length l)].
Proof.
  intros. rewrite app_length. cbn [length]. rewrite seq_app. cbn [seq].
  assert (G : forall (a : list tag) (b : list nat), length a = length b ->
    forall x y, combine (a ++ [x]) (b ++ [y]) = combine a b ++ [(x, y)]).
  { induction a; intros [|] L x y; try discriminate; auto. simpl. f_equal. apply IHa. now injection L. }
  apply G. now rewrite seq_length.
Qed.

Lemma register_In : forall p t, In t (reg (register p t)).
Proof.
  intros. unfold register. destruct (in_dec tag_eq_dec t (reg p)); auto. simpl. apply in_or_app; right; now left.
Qed.
Lemma register_len : forall p t, length (reg p) <= length (reg (register p t)).
Proof.
  intros. unfold register. destruct (in_dec tag_eq_dec t (reg p)); auto. simpl. rewrite app_length. lia.
Qed.
Lemma register_live : forall p t, live (register p t) = live p.
Proof. intros. unfold register. now destruct (in_dec tag_eq_dec t (reg p)). Qed.
Lemma register_samples : forall p t, samples (register p t) = samples p.
Proof. intros. unfold register. now destruct (in_dec tag_eq_dec t (reg p)). Qed.
Lemma handle_lt : forall p t, handle_of (register p t) t < length (reg (register p t)).
Proof. intros. apply pos_lt, register_In. Qed.

Lemma getHandle_sim : forall s p t, Sim s p ->
  Sim (fst (getHandle s t)) (register p t) /\ snd (getHandle s t) = handle_of (register p t) t /\
  objs (fst (getHandle s t)) = objs s.
Proof.
  intros s p t [M ND L A O J]. unfold getHandle, register, handle_of. rewrite M, lookup_tag_combine.
  destruct (in_dec tag_eq_dec t (reg p)) as [I|I]; cbn [fst snd].
  - split; [constructor; auto|]. split; auto.
  - split; [|cbn [reg objs]; split; [|reflexivity]].
    2:{ rewrite pos_app_r; auto. }
    constructor; cbn [tagMap timers objs reg samples live].
    + now rewrite L, combine_snoc.
    + apply NoDup_app_snoc || idtac.
      assert (G : forall (l : list tag) x, NoDup l -> ~ In x l -> NoDup (l ++ [x])).
      { induction l; intros x N H; simpl; [constructor; auto; constructor|]. inversion N; subst.
        constructor. - intros K. apply in_app_or in K as [K|[K|[]]]; [auto|]. subst. apply H. now left.
        - apply IHl; auto. intros K. apply H. now right. }
      auto.
    + rewrite !app_length. simpl. lia.
    + intros h. rewrite app_length. cbn [length]. intros Hh.
      destruct (Nat.eq_dec h (length (reg p))) as [->|Hne].
      * rewrite nth_error_app2, L, Nat.sub_diag by lia. rewrite O by lia. reflexivity.
      * rewrite nth_error_app1 by lia. apply A. lia.
    + intros h. rewrite app_length. intros. apply O. lia.
    + intros i. specialize (J i). rewrite app_length. cbn [length].
      destruct (lookup_obj (objs s) i), (live p i) as [[? ?]|]; simpl in *; intuition lia.
Qed.

Lemma lookup_remove : forall m i j, lookup_obj (remove_obj m i) j = if Nat.eqb j i then None else lookup_obj m j.
Proof.
  induction m as [|[k t] m IH]; intros i j; [simpl; now destruct (j =? i)|].
  unfold remove_obj in *. cbn [filter fst]. destruct (Nat.eqb_spec k i); cbn [negb lookup_obj].
  - rewrite IH. subst. destruct (Nat.eqb_spec j i); auto. destruct (Nat.eqb_spec i j); [congruence|auto].
  - rewrite IH. destruct (Nat.eqb_spec k j); auto. subst. destruct (Nat.eqb_spec j i); [congruence|auto].
Qed.
Lemma lookup_set : forall m i t j, lookup_obj (set_obj m i t) j = if Nat.eqb j i then Some t else lookup_obj m j.
Proof.
  intros. unfold set_obj. cbn [lookup_obj]. rewrite lookup_remove. rewrite (Nat.eqb_sym i j).
  now destruct (j =? i).
Qed.
Lemma update_length : forall A (l : list A) i f, length (update l i f) = length l.
Proof. induction l; intros [|i] f; simpl; auto. Qed.
Lemma update_nth : forall A (l : list A) i f j,
  nth_error (update l i f) j = if Nat.eqb j i then option_map f (nth_error l j) else nth_error l j.
Proof.
  induction l; intros [|i] f [|j]; simpl; auto. destruct (j =? i); reflexivity.
Qed.

Lemma Sim_objs : forall s p i o v, Sim s p -> obj_ok (length (reg p)) o v ->
  (forall j, lookup_obj (objs s) j = lookup_obj (objs s) j) ->
  forall ob, (forall j, lookup_obj ob j = if Nat.eqb j i then o else lookup_obj (objs s) j) ->
  Sim (mkSt (tagMap s) (timers s) ob) (s_live p i v).
Proof.
  intros s p i o v [M ND L A O J] H _ ob E. constructor; auto. cbn. intros j. rewrite E. unfold upd.
  destruct (j =? i); auto.
Qed.
Lemma Sim_set : forall s p i t v, Sim s p -> obj_ok (length (reg p)) (Some t) v ->
  Sim (mkSt (tagMap s) (timers s) (set_obj (objs s) i t)) (s_live p i v).
Proof. intros. eapply Sim_objs; eauto using lookup_set. Qed.
Lemma Sim_rem : forall s p i, Sim s p -> Sim (mkSt (tagMap s) (timers s) (remove_obj (objs s) i)) (s_live p i None).
Proof. intros. eapply Sim_objs with (o := None); eauto using lookup_remove. exact I. Qed.

Lemma Sim_sample : forall s p h t0 t1, Sim s p -> h < length (reg p) ->
  Sim (addTime s h (seconds_between t0 t1)) (s_sample p h t0 t1).
Proof.
  intros s p h t0 t1 [M ND L A O J] Hh. constructor; auto; cbn [addTime timers s_sample reg samples].
  - now rewrite update_length.
  - intros k Hk. rewrite update_nth. unfold upd. destruct (Nat.eqb_spec k h).
    + subst. rewrite A by auto. cbn [option_map]. f_equal. now rewrite accOf_snoc.
    + now apply A.
  - intros k Hk. unfold upd. destruct (Nat.eqb_spec k h); [lia|auto].
Qed.
Lemma Sim_reset : forall s p h, Sim s p -> h < length (reg p) ->
  Sim (mkSt (tagMap s) (update (timers s) h (fun _ => newAcc)) (objs s)) (s_reset p h).
Proof.
  intros s p h [M ND L A O J] Hh. constructor; auto; cbn [timers s_reset reg samples].
  - now rewrite update_length.
  - intros k Hk. rewrite update_nth. unfold upd. destruct (Nat.eqb_spec k h).
    + subst. now rewrite A by auto.
    + now apply A.
  - intros k Hk. unfold upd. destruct (Nat.eqb_spec k h); auto.
Qed.
Lemma Sim_getstats : forall s p h, Sim s p ->
  res_ok (get_stats s h) (if h <? length (reg p) then SStats (samples p h) else SThrow).
Proof.
  intros s p h S. unfold get_stats. destruct (Nat.ltb_spec h (length (reg p))).
  - rewrite (sim_acc _ _ S) by auto. apply stats_accOf.
  - destruct (nth_error (timers s) h) eqn:E; [|exact I].
    assert (h < length (timers s)) by (apply nth_error_Some; congruence). rewrite (sim_len _ _ S) in *. lia.
Qed.
Lemma new_obj_sim : forall s p i h st now, Sim s p -> h < length (reg p) ->
  Sim (fst (new_obj s i h st now)) (s_new p i h st now) /\ snd (new_obj s i h st now) = RUnit.
Proof.
  intros s p i h st now S Hh. unfold new_obj. destruct st; cbn [fst snd].
  - split; auto. change (s_new p i h true now) with (s_live p i (Some (h, None))). apply Sim_set; auto. cbn. auto.
  - unfold timer_start. cbn [objs]. rewrite lookup_set, Nat.eqb_refl. cbn [m_timing m_handle fst snd tagMap timers].
    split; auto. change (s_new p i h false now) with (s_live p i (Some (h, Some now))).
    eapply Sim_objs with (o := Some (mkTimer true h now)); eauto; [cbn; auto|].
    intros j. rewrite lookup_set, lookup_set. now destruct (j =? i).
Qed.
Lemma s_live_twice : forall p i v w, forall j, live (s_live (s_live p i v) i w) j = live (s_live p i w) j.
Proof. intros. cbn. unfold upd. now destruct (j =? i). Qed.

Lemma sim_step : forall o s p, Sim s p ->
  Sim (fst (step s o)) (fst (sstep p o)) /\ res_ok (snd (step s o)) (snd (sstep p o)).
Proof.
  intros o s p S. pose proof (fun i => sim_obj _ _ S i) as J.
  destruct o as [t|h|i h st now|i t st now|i now|i now|i|i now|h|t|h|t]; cbn [step sstep].
  - destruct (getHandle_sim s p t S) as (S' & E & _). destruct (getHandle s t) as [s' h']; cbn [fst snd] in *. split; auto.
  - split; [exact S|]. cbn [snd]. unfold getTag. rewrite (sim_map _ _ S).
    pose proof (lookup_handle_combine (reg p) 0 h) as K. cbn [Nat.add] in K. rewrite K.
    destruct (nth_error (reg p) h); reflexivity.
  - specialize (J i). destruct (lookup_obj (objs s) i) as [tm|], (live p i) as [[h' r]|]; try (exfalso; exact J).
    + cbn. split; [auto|exact I].
    + rewrite (sim_len _ _ S). destruct (Nat.ltb_spec h (length (reg p))); [|cbn; split; [auto|exact I]].
      destruct (new_obj_sim s p i h st now S) as [S' E]; auto. rewrite E. cbn [fst snd]. split; [auto|exact I].
  - specialize (J i). destruct (lookup_obj (objs s) i) as [tm|], (live p i) as [[h' r]|]; try (exfalso; exact J).
    + cbn. split; [auto|exact I].
    + destruct (getHandle_sim s p t S) as (S' & E & _). pose proof (handle_lt p t) as HL.
      destruct (getHandle s t) as [s' h']; cbn [fst snd] in *. subst h'.
      destruct (new_obj_sim s' (register p t) i _ st now S' HL) as [S'' E']. rewrite E'. split; [auto|exact I].
  - specialize (J i). unfold timer_start. destruct (lookup_obj (objs s) i) as [tm|], (live p i) as [[h' r]|]; try (exfalso; exact J).
    2:{ cbn. split; [auto|exact I]. }
    destruct J as (E1 & E2 & E3). destruct (m_timing tm) eqn:T; subst r; cbn [fst snd]; (split; [|exact I]); auto.
    apply Sim_set; auto. cbn. auto.
  - specialize (J i). unfold timer_stop. destruct (lookup_obj (objs s) i) as [tm|], (live p i) as [[h' r]|]; try (exfalso; exact J).
    2:{ cbn. split; [auto|exact I]. }
    destruct J as (E1 & E2 & E3). destruct (m_timing tm) eqn:T; subst r; cbn [fst snd negb]; (split; [|exact I]); auto.
    subst h'. apply Sim_set; [apply Sim_sample; auto|]. cbn. auto.
  - split; [exact S|]. cbn [snd]. specialize (J i).
    destruct (lookup_obj (objs s) i) as [tm|], (live p i) as [[h' r]|]; try (exfalso; exact J).
    { destruct J as (E1 & E2 & E3). subst r. now destruct (m_timing tm). } exact I.
  - pose proof (J i) as Ji. unfold timer_stop. destruct (lookup_obj (objs s) i) as [tm|], (live p i) as [[h' r]|]; try (exfalso; exact Ji).
    2:{ cbn. split; [auto|exact I]. }
    destruct Ji as (E1 & E2 & E3). destruct (m_timing tm) eqn:T; subst r; cbn [fst snd negb]; (split; [|exact I]); auto.
    + subst h'. eapply (Sim_objs (addTime s (m_handle tm) (seconds_between (m_time tm) now))) with (o := None);
        [apply Sim_sample; eauto|exact I|auto|].
      cbn [objs]. intros j. rewrite lookup_remove, lookup_set. now destruct (j =? i).
    + now apply Sim_rem.
  - split; [exact S|]. cbn [snd]. now apply Sim_getstats.
  - destruct (getHandle_sim s p t S) as (S' & E & _). pose proof (handle_lt p t) as HL.
    destruct (getHandle s t) as [s' h']; cbn [fst snd] in *. subst h'. split; auto.
    pose proof (Sim_getstats s' (register p t) (handle_of (register p t) t) S') as K.
    rewrite register_samples in K. destruct (Nat.ltb_spec (handle_of (register p t) t) (length (reg (register p t)))); [exact K|lia].
  - unfold do_reset. rewrite (sim_len _ _ S). destruct (Nat.ltb_spec h (length (reg p))); cbn [fst snd]; (split; [|exact I]); auto.
    now apply Sim_reset.
  - destruct (getHandle_sim s p t S) as (S' & E & _). pose proof (handle_lt p t) as HL.
    destruct (getHandle s t) as [s' h']; cbn [fst snd] in *. subst h'. unfold do_reset. rewrite (sim_len _ _ S').
    destruct (Nat.ltb_spec (handle_of (register p t) t) (length (reg (register p t)))); [|lia]. cbn [fst snd].
    split; [now apply Sim_reset|exact I].
Qed.

Lemma sim_run : forall ops s p, Sim s p ->
  Sim (fst (run s ops)) (fst (srun p ops)) /\ Forall2 res_ok (snd (run s ops)) (snd (srun p ops)).
Proof.
  induction ops as [|o ops IH]; intros s p S; [split; [auto|constructor]|].
  cbn [run srun]. destruct (sim_step o s p S) as [S1 R1].
  destruct (step s o) as [s1 r1], (sstep p o) as [p1 q1]; cbn [fst snd] in *.
  destruct (IH s1 p1 S1) as [S2 R2]. destruct (run s1 ops), (srun p1 ops); cbn [fst snd] in *. split; auto.
Qed.

(** ** facts about the specification machine *)
Lemma sstep_reg : forall o p, exists l, reg (fst (sstep p o)) = reg p ++ l.
Proof.
  intros o p. assert (R : forall t, exists l, reg (register p t) = reg p ++ l).
  { intros t. unfold register. destruct (in_dec tag_eq_dec t (reg p)); [exists []; now rewrite app_nil_r|cbn; eauto]. }
  assert (N : exists l, reg p = reg p ++ l) by (exists []; now rewrite app_nil_r).
  destruct o; cbn [sstep fst]; auto;
    repeat match goal with
    | |- context [match live ?p ?i with _ => _ end] => destruct (live p i) as [[? [?|]]|]
    | |- context [if ?b then _ else _] => destruct b
    end; cbn [fst s_new s_live s_sample s_reset reg]; auto.
Qed.
Lemma srun_reg : forall ops p, exists l, reg (fst (srun p ops)) = reg p ++ l.
Proof.
  induction ops as [|o ops IH]; intros p; [exists []; cbn; now rewrite app_nil_r|].
  cbn [srun]. destruct (sstep_reg o p) as [l1 E1]. destruct (sstep p o) as [p1 r]; cbn [fst] in *.
  destruct (IH p1) as [l2 E2]. destruct (srun p1 ops); cbn [fst] in *. rewrite E2, E1, <- app_assoc. eauto.
Qed.
Lemma srun_app : forall a b p,
  srun p (a ++ b) = let '(p1, r1) := srun p a in let '(p2, r2) := srun p1 b in (p2, r1 ++ r2).
Proof.
  induction a as [|o a IH]; intros b p; [cbn; now destruct (srun p b)|].
  cbn [app srun]. destruct (sstep p o). rewrite IH. destruct (srun s a), (srun s1 b). reflexivity.
Qed.
Lemma run_app : forall a b s,
  run s (a ++ b) = let '(p1, r1) := run s a in let '(p2, r2) := run p1 b in (p2, r1 ++ r2).
Proof.
  induction a as [|o a IH]; intros b s; [cbn; now destruct (run s b)|].
  cbn [app run]. destruct (step s o). rewrite IH. destruct (run s0 a), (run s1 b). reflexivity.
Qed.
