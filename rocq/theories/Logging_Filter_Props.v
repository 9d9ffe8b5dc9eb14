(** C58, C60: filtering and deadlock. *)
From Verif Require Import Logging_Model Logging_Spec Logging_Proofs.
Open Scope nat_scope.

(** ** notify *)
Definition same_static (g g' : shared) : Prop :=
  glevel g' = glevel g /\ gstreams g' = gstreams g /\ greg g' = greg g /\
  forall id, linit (gtable g' id) = linit (gtable g id) /\ llevel (gtable g' id) = llevel (gtable g id) /\ lname (gtable g' id) = lname (gtable g id).
Lemma static_refl g : same_static g g. Proof. repeat split. Qed.
Lemma static_trans a b c : same_static a b -> same_static b c -> same_static a c.
Proof. intros (A1 & A2 & A3 & A4) (B1 & B2 & B3 & B4). repeat split; try congruence; destruct (A4 id) as (P & Q & R), (B4 id) as (P' & Q' & R'); congruence. Qed.
Lemma check_static g id : same_static g (check g id).
Proof. repeat split; unfold check, set_loc; cbn [gtable]; unfold upd; destruct (Nat.eqb id0 id) eqn:E; auto; apply Nat.eqb_eq in E; subst; auto. Qed.
Lemma enabled_static g g' l l' : same_static g g' -> llevel l' = llevel l -> lname l' = lname l -> enabled_value g' l' = enabled_value g l.
Proof. intros (A1 & A2 & _) E1 E2. unfold enabled_value. rewrite A1, A2, E1, E2. auto. Qed.
Lemma check_coh g id x : coh g x \/ x = id -> coh (check g id) x.
Proof.
  intros H. unfold coh. destruct (check_static g id) as (A1 & A2 & A3 & A4). destruct (A4 x) as (P & Q & R).
  rewrite (enabled_static g (check g id) (gtable g x) _ (check_static g id)) by auto. unfold check, set_loc. cbn [gtable]. unfold upd.
  destruct (Nat.eqb x id) eqn:E; [apply Nat.eqb_eq in E; subst; auto|]. apply Nat.eqb_neq in E. destruct H; [auto|congruence].
Qed.
Lemma checks l : forall g, same_static g (fold_left check l g) /\ forall x, coh g x \/ In x l -> coh (fold_left check l g) x.
Proof.
  induction l as [|i l IH]; intros g; cbn [fold_left].
  - split; [apply static_refl|]. intros x [H|[]]; auto.
  - destruct (IH (check g i)) as [A B]. split; [eapply static_trans; [apply check_static|exact A]|]. intros x H. apply B.
    destruct H as [H|[->|H]]; auto; left; apply check_coh; auto.
Qed.
Lemma notify_ok g : same_static g (notify g) /\ forall x, In x (greg g) -> coh (notify g) x.
Proof. destruct (checks (greg g) g) as [A B]. split; auto. Qed.

(** ** the state after a history *)
Record after_history (h : list op) (g : shared) : Prop := {
  ahL : glevel g = level_after h;
  ahS : forall n, mem n (gstreams g) = stream_on h n;
  ahR : forall id, linit (gtable g id) = true -> In id (greg g);
  ahC : forall id, In id (greg g) -> coh g id;
  ahN : forall id, linit (gtable g id) = true -> exists m l c, In (Log id m l c) h /\ lname (gtable g id) = m }.
Lemma level_snoc h o : level_after (h ++ [o]) = match o with SetLevel x => x | _ => level_after h end.
Proof. unfold level_after. rewrite fold_left_app. destruct o; auto. Qed.
Lemma stream_snoc h o n : stream_on (h ++ [o]) n = match o with
  | Enable m => if bytes_eqb n (addDefaultPrefixIfMissing m) then true else stream_on h n
  | Disable m => if bytes_eqb n (addDefaultPrefixIfMissing m) then false else stream_on h n | _ => stream_on h n end.
Proof. unfold stream_on. rewrite fold_left_app. destruct o; auto. Qed.
Lemma mem_insert n m s : mem n (insert m s) = if bytes_eqb n m then true else mem n s.
Proof.
  unfold insert. destruct (mem m s) eqn:E; [|cbn; destruct (bytes_eqb n m); auto]. destruct (bytes_eqb n m) eqn:Q; auto. apply bytes_eqb_eq in Q. congruence.
Qed.
Lemma eqb_sym a b : bytes_eqb a b = bytes_eqb b a.
Proof. destruct (bytes_eqb a b) eqn:E; symmetry; [apply bytes_eqb_eq in E; subst; apply bytes_eqb_refl|]. destruct (bytes_eqb b a) eqn:Q; auto. apply bytes_eqb_eq in Q. subst. rewrite bytes_eqb_refl in E. discriminate. Qed.
Lemma mem_erase n m s : mem n (erase m s) = if bytes_eqb n m then false else mem n s.
Proof.
  unfold erase. induction s as [|x s IH]; [destruct (bytes_eqb n m); auto|]. cbn [filter]. destruct (bytes_eqb m x) eqn:E; cbn [negb].
  - rewrite IH. apply bytes_eqb_eq in E. subst x. cbn. destruct (bytes_eqb n m); auto.
  - cbn. fold (mem n (filter (fun x => negb (bytes_eqb m x)) s)). rewrite IH. destruct (bytes_eqb n m) eqn:Q; [|reflexivity]. apply bytes_eqb_eq in Q. subst. rewrite E. auto.
Qed.
Lemma run_snoc h : forall g o, run g (h ++ [o]) = fst (exec (run g h) o).
Proof. induction h as [|x h IH]; intros g o; cbn; auto. Qed.
Lemma in_snoc_log h o id m l c : In (Log id m l c) h -> In (Log id m l c) (h ++ [o]). Proof. intros. apply in_or_app. auto. Qed.

Lemma init_ok h g id name l cond : after_history h g -> linit (gtable g id) = false -> (forall m l c, In (Log id m l c) h -> False) ->
  let g' := initialize g id name l in
  after_history (h ++ [Log id name l cond]) g' /\ linit (gtable g' id) = true /\ lname (gtable g' id) = name /\ llevel (gtable g' id) = l.
Proof.
  intros A NI NH. unfold initialize. rewrite NI.
  set (g1 := mkG (glevel g) (gstreams g) (upd (gtable g) id (mkLoc false (lenabled (gtable g id)) l name)) (greg g ++ [id])).
  destruct (check_static g1 id) as (S1 & S2 & S3 & S4). cbn zeta.
  assert (T1 : gtable g1 id = mkLoc false (lenabled (gtable g id)) l name) by (unfold g1; cbn [gtable]; apply upd_same).
  assert (TO : forall x, x <> id -> gtable g1 x = gtable g x) by (intros x N; unfold g1; cbn [gtable]; apply upd_other; auto).
  destruct (S4 id) as (P & Q & R). rewrite T1 in P, Q, R. cbn in P, Q, R.
  assert (UO : forall x, x <> id -> gtable (check g1 id) x = gtable g x).
  { intros x N. unfold check, set_loc. cbn [gtable]. rewrite upd_other by auto. apply TO. auto. }
  assert (C : forall x, In x (greg g1) -> coh (check g1 id) x).
  { intros x IN. apply check_coh. destruct (Nat.eq_dec x id) as [->|N]; auto. left. unfold coh. rewrite TO by auto. change (greg g1) with (greg g ++ [id]) in IN.
    apply in_app_or in IN as [IN|[->|[]]]; [|congruence]. rewrite (ahC _ _ A x IN). reflexivity. }
  split; [split|].
  - rewrite level_snoc. cbn [set_loc glevel]. rewrite S1. apply (ahL _ _ A).
  - intros n. rewrite stream_snoc. cbn [set_loc gstreams]. rewrite S2. apply (ahS _ _ A).
  - intros x. cbn [set_loc greg gtable]. rewrite S3. unfold upd. destruct (Nat.eqb x id) eqn:E; intros H; apply in_or_app.
    + apply Nat.eqb_eq in E. subst. right. left. auto.
    + apply Nat.eqb_neq in E. rewrite UO in H by auto. left. apply (ahR _ _ A). auto.
  - intros x IN. change (greg (set_loc (check g1 id) id (with_init (gtable (check g1 id) id)))) with (greg (check g1 id)) in IN. rewrite S3 in IN. specialize (C x IN).
    unfold coh in *. unfold set_loc. cbn [gtable]. unfold upd. destruct (Nat.eqb x id) eqn:E; [|exact C]. apply Nat.eqb_eq in E. subst x. exact C.
  - intros x. cbn [set_loc gtable]. unfold upd. destruct (Nat.eqb x id) eqn:E; intros H.
    + apply Nat.eqb_eq in E. subst x. exists name, l, cond. split; [apply in_or_app; right; left; auto|]. exact R.
    + apply Nat.eqb_neq in E. rewrite UO in * by auto. destruct (ahN _ _ A x H) as (m & l' & c' & IN & EQ). exists m, l', c'. split; [apply in_snoc_log; auto|auto].
  - cbn [set_loc gtable]. rewrite upd_same. cbn [with_init linit lname llevel]. auto.
Qed.
(** a statement executed in a history has been initialised *)
Definition init_if_logged (h : list op) (g : shared) : Prop := forall id m l c, In (Log id m l c) h -> linit (gtable g id) = true.

Lemma weaken h g i nm lv cd : after_history h g -> after_history (h ++ [Log i nm lv cd]) g.
Proof.
  intros A. split; try apply A.
  - rewrite level_snoc. apply (ahL _ _ A).
  - intros n. rewrite stream_snoc. apply (ahS _ _ A).
  - intros id H. destruct (ahN _ _ A id H) as (m & l & c & IN & E). exists m, l, c. split; auto. apply in_snoc_log. auto.
Qed.
Lemma level_ok h g id l : after_history h g -> linit (gtable g id) = true ->
  let g' := if Nat.eqb (llevel (gtable g id)) l then g else check (set_loc g id (with_level (gtable g id) l)) id in
  after_history h g' /\ (forall x, linit (gtable g' x) = linit (gtable g x) /\ lname (gtable g' x) = lname (gtable g x)) /\ llevel (gtable g' id) = l.
Proof.
  intros A IN. destruct (Nat.eqb (llevel (gtable g id)) l) eqn:E; cbn zeta.
  - apply Nat.eqb_eq in E. auto.
  - set (g1 := set_loc g id (with_level (gtable g id) l)). destruct (check_static g1 id) as (S1 & S2 & S3 & S4).
    assert (T : forall x, linit (gtable g1 x) = linit (gtable g x) /\ lname (gtable g1 x) = lname (gtable g x)).
    { intros x. unfold g1. cbn [set_loc gtable]. unfold upd. destruct (Nat.eqb x id) eqn:Q; auto. apply Nat.eqb_eq in Q. subst. auto. }
    assert (T' : forall x, linit (gtable (check g1 id) x) = linit (gtable g x) /\ lname (gtable (check g1 id) x) = lname (gtable g x)).
    { intros x. destruct (S4 x) as (P & _ & R), (T x). split; congruence. }
    split; [split|split]; auto.
    + rewrite S1. apply (ahL _ _ A).
    + intros n. rewrite S2. apply (ahS _ _ A).
    + intros x. rewrite S3. destruct (T' x) as [-> _]. apply (ahR _ _ A).
    + intros x H. rewrite S3 in H. apply check_coh. destruct (Nat.eq_dec x id) as [->|N]; auto. left. unfold coh, g1. cbn [set_loc gtable]. rewrite upd_other by auto.
      rewrite (ahC _ _ A x H). reflexivity.
    + intros x H. destruct (T' x) as [E1 E2]. rewrite E1 in H. rewrite E2. apply (ahN _ _ A x H).
    + destruct (S4 id) as (_ & -> & _). unfold g1. cbn [set_loc gtable]. rewrite upd_same. auto.
Qed.

Lemma history h : after_history h (run g0 h) /\ init_if_logged h (run g0 h).
Proof.
  induction h as [|o h [A B]] using rev_ind.
  { split; [split; cbn; intros; try discriminate; try contradiction; auto|]. - rewrite orb_false_r. auto. - intros ? ? ? ? []. }
  rewrite run_snoc. set (g := run g0 h) in *. destruct o as [l|n|n|id name l cond]; cbn [exec fst].
  - unfold setLevel. destruct (Nat.eqb l (glevel g)) eqn:E.
    + apply Nat.eqb_eq in E. split; [|intros i m l' c IN; apply in_app_or in IN as [IN|[IN|[]]]; [eauto|discriminate]].
      split; try apply A. { rewrite level_snoc. auto. } { intros n. rewrite stream_snoc. apply (ahS _ _ A). }
      intros i H. destruct (ahN _ _ A i H) as (m & l' & c & IN & Q). exists m, l', c. split; auto. apply in_snoc_log. auto.
    + destruct (notify_ok (set_level g l)) as [(S1 & S2 & S3 & S4) C].
      split; [|intros i m l' c IN; apply in_app_or in IN as [IN|[IN|[]]]; [|discriminate]; destruct (S4 i) as (-> & _); cbn; eauto].
      split.
      * rewrite level_snoc, S1. auto.
      * intros n. rewrite stream_snoc, S2. apply (ahS _ _ A).
      * intros i. rewrite S3. destruct (S4 i) as (-> & _). apply (ahR _ _ A).
      * intros i. rewrite S3. apply C.
      * intros i H. destruct (S4 i) as (E1 & _ & E2). rewrite E1 in H. rewrite E2. destruct (ahN _ _ A i H) as (m & l' & c & IN & Q). exists m, l', c. split; auto. apply in_snoc_log. auto.
  - unfold enableStream. set (g1 := set_streams g _). destruct (notify_ok g1) as [(S1 & S2 & S3 & S4) C].
    split; [|intros i m l' c IN; apply in_app_or in IN as [IN|[IN|[]]]; [|discriminate]; destruct (S4 i) as (-> & _); cbn; eauto].
    split.
    + rewrite level_snoc, S1. apply (ahL _ _ A).
    + intros x. rewrite stream_snoc, S2. unfold g1. cbn [set_streams gstreams]. rewrite mem_insert, (ahS _ _ A). auto.
    + intros i. rewrite S3. destruct (S4 i) as (-> & _). apply (ahR _ _ A).
    + intros i. rewrite S3. apply C.
    + intros i H. destruct (S4 i) as (E1 & _ & E2). rewrite E1 in H. rewrite E2. destruct (ahN _ _ A i H) as (m & l' & c & IN & Q). exists m, l', c. split; auto. apply in_snoc_log. auto.
  - unfold disableStream. destruct (mem (addDefaultPrefixIfMissing n) (gstreams g)) eqn:E.
    + set (g1 := set_streams g _). destruct (notify_ok g1) as [(S1 & S2 & S3 & S4) C].
      split; [|intros i m l' c IN; apply in_app_or in IN as [IN|[IN|[]]]; [|discriminate]; destruct (S4 i) as (-> & _); cbn; eauto].
      split.
      * rewrite level_snoc, S1. apply (ahL _ _ A).
      * intros x. rewrite stream_snoc, S2. unfold g1. cbn [set_streams gstreams]. rewrite mem_erase, (ahS _ _ A). auto.
      * intros i. rewrite S3. destruct (S4 i) as (-> & _). apply (ahR _ _ A).
      * intros i. rewrite S3. apply C.
      * intros i H. destruct (S4 i) as (E1 & _ & E2). rewrite E1 in H. rewrite E2. destruct (ahN _ _ A i H) as (m & l' & c & IN & Q). exists m, l', c. split; auto. apply in_snoc_log. auto.
    + split; [|intros i m l' c IN; apply in_app_or in IN as [IN|[IN|[]]]; [eauto|discriminate]].
      split; try apply A. { rewrite level_snoc. apply (ahL _ _ A). }
      { intros x. rewrite stream_snoc, (ahS _ _ A). destruct (bytes_eqb x (addDefaultPrefixIfMissing n)) eqn:Q; auto. apply bytes_eqb_eq in Q. subst x. rewrite (ahS _ _ A) in E. auto. }
      intros i H. destruct (ahN _ _ A i H) as (m & l' & c & IN & Q). exists m, l', c. split; auto. apply in_snoc_log. auto.
  - destruct (define_location g id name l cond) as [g' b] eqn:D. cbn [fst]. unfold define_location in D.
    destruct (linit (gtable g id)) eqn:LI; injection D as <- _.
    + pose proof (weaken h g id name l cond A) as A'.
      destruct (level_ok _ g id l A' LI) as (B1 & B2 & B3). split; auto. intros i m l' c IN. destruct (B2 i) as [-> _]. apply in_app_or in IN as [IN|[IN|[]]]; eauto. congruence.
    + destruct (init_ok h g id name l cond A LI) as (C1 & C2 & C3 & C4). { intros m l' c IN. apply B in IN. congruence. }
      cbn zeta in *. set (g1 := initialize g id name l) in *. destruct (level_ok _ g1 id l C1 C2) as (B1 & B2 & B3). split; auto.
      intros i m l' c IN. destruct (B2 i) as [-> _]. destruct (Nat.eq_dec i id) as [->|N]; auto. apply in_app_or in IN as [IN|[IN|[]]]; [|congruence].
      unfold g1, initialize. rewrite LI. cbn [set_loc gtable check]. rewrite !upd_other by auto. eauto.
Qed.

(** C58: whatever happened before, a log statement with a fixed stream name is emitted exactly if its condition holds, its level
    reaches the current threshold and its stream is enabled. *)
Theorem log_filter_up_to_date h id n l cond : named h id n -> answer h (Log id n l cond) = Some (wanted h n l cond).
Proof.
  intros NM. destruct (history h) as [A B]. unfold answer. set (g := run g0 h) in *. cbn [exec]. destruct (define_location g id n l cond) as [g' b] eqn:D. cbn [snd]. f_equal.
  unfold define_location in D.
  assert (G : forall h1 g1, level_after h1 = level_after h -> (forall x, stream_on h1 x = stream_on h x) -> after_history h1 g1 -> linit (gtable g1 id) = true -> lname (gtable g1 id) = n ->
     let g2 := if Nat.eqb (llevel (gtable g1 id)) l then g1 else check (set_loc g1 id (with_level (gtable g1 id) l)) id in lenabled (gtable g2 id) && cond = wanted h n l cond).
  { intros h1 g1 HL HS A1 LI LN. destruct (level_ok h1 g1 id l A1 LI) as (B1 & B2 & B3). cbn zeta in *. set (g2 := if Nat.eqb _ _ then _ else _) in *. destruct (B2 id) as [E1 E2].
    rewrite (ahC _ _ B1 id) by (apply (ahR _ _ B1); congruence). unfold enabled_value, wanted. rewrite B3, E2, LN, (ahL _ _ B1), HL. rewrite andb_comm, <- andb_assoc. f_equal. f_equal.
    destruct n; auto. rewrite <- HS. apply (ahS _ _ B1). }
  destruct (linit (gtable g id)) eqn:LI; injection D as <- <-.
  - apply (G h); auto. destruct (ahN _ _ A id LI) as (m & l' & c & IN & ->). apply NM in IN. auto.
  - destruct (init_ok h g id n l cond A LI) as (C1 & C2 & C3 & C4). { intros m l' c IN. apply B in IN. congruence. }
    apply (G (h ++ [Log id n l cond])); auto.
    + apply level_snoc.
    + intros x. apply stream_snoc.
Qed.
(** The stream name is read only at the first execution: a statement whose name is computed anew keeps the first one. *)
Theorem log_filter_dynamic_name_refuted : exists h id n l, answer h (Log id n l true) <> Some (wanted h n l true) /\ (exists m, In (Log id m l true) h /\ answer h (Log id n l true) = Some (wanted h m l true)).
Proof.
  exists [Log 0 (str "sm") 8 true], 0, (str "sm.vision"), 8. split; [vm_compute; discriminate|]. exists (str "sm"). split; [left; auto|]. vm_compute. reflexivity.
Qed.
(** The same under any interleaving of threads: as soon as no call is in progress, executing a statement that has always used the
    stream name n emits exactly according to what getLevel and isNamedStreamEnabled answer. *)
Definition getLevel (c : config) : level := glevel (wg (cw c)).
Definition isNamedStreamEnabled (c : config) (n : bytes) : bool := mem n (gstreams (wg (cw c))).
Definition all_named (progs : list (list op)) (id : nat) (n : bytes) : Prop := forall p m l c, In p progs -> In (Log id m l c) p -> m = n.
Lemma names_reachable progs id n c : all_named progs id n -> reachable progs c ->
  (In id (greg (wg (cw c))) -> lname (gtable (wg (cw c)) id) = n) /\ (forall t p r, nth_error (cthreads c) t = Some (p, r) -> (forall m l k, In (Log id m l k) r -> m = n) /\ (forall m l k, p = PLog id m l k \/ p = PInit id m l k -> m = n)).
Proof.
  intros AN R. induction R as [|c t c' R [IH1 IH2] S].
  - split; [intros []|]. intros t p r N. cbn [start cthreads] in N. rewrite nth_error_map in N. destruct (nth_error progs t) eqn:E; [|discriminate]. injection N as <- <-.
    split; [intros m l' k IN; eapply AN; [eapply nth_error_In; eauto|eauto]|]. intros m l' k [X|X]; discriminate.
  - pose proof (inv_reachable _ _ R) as I. apply cstep_cases in S as X.
    unfold cstep in S. destruct (nth_error (cthreads c) t) as [[p r]|] eqn:E; [|discriminate]. destruct (IH2 t p r E) as [IHr IHp].
    assert (K : (In id (greg (wg (cw c'))) -> lname (gtable (wg (cw c')) id) = n) /\ exists p' r', cthreads c' = replace t (p', r') (cthreads c) /\     (forall m l k, In (Log id m l k) r' -> m = n) /\ (forall m l k, p' = PLog id m l k \/ p' = PInit id m l k -> m = n)).
    { assert (ID : {p = PIdle} + {p <> PIdle}) by (destruct p; first [left; reflexivity|right; discriminate]). destruct ID as [->|NI].
      - destruct r as [|o r]; [discriminate|]. injection S as <-. cbn [cw cthreads]. split; auto. exists (begin o), r. split; auto. split; [intros; eapply IHr; right; eauto|].
        intros m l k [H|H]; destruct o; cbn in H; try discriminate. injection H as -> -> -> ->. eapply IHr. left. reflexivity.
      - assert (S' : match tstep (cw c) t p with None => None | Some (w', p', e) => Some (mkC w' (replace t (p', r) (cthreads c)) (match e with Some x => (t, x) :: cout c | None => cout c end)) end = Some c')
          by (destruct p; try exact S; congruence). clear S.
        destruct (tstep (cw c) t p) as [[[w' p'] e]|] eqn:TS; [|discriminate]. injection S' as <-. cbn [cw cthreads].
        assert (Y : (In id (greg (wg w')) -> lname (gtable (wg w') id) = n) /\ (forall m l k, p' = PLog id m l k \/ p' = PInit id m l k -> m = n)).
        { destruct (cw c) as [g L Sm] eqn:CW. cbn [wg] in *.
          assert (UP : forall i x, lname x = lname (gtable g i) -> In id (greg g) -> lname (upd (gtable g) i x id) = n).
          { intros i x H IN. unfold upd. destruct (Nat.eqb id i) eqn:Q; [apply Nat.eqb_eq in Q; subst i; rewrite H|]; auto. }
          destruct p; cbn in TS;
          repeat match type of TS with
            | context [match ?x with _ => _ end] => destruct x eqn:?; try discriminate
            end; try discriminate; injection TS as <- <- <-; cbn [wg set_level set_streams set_loc gtable greg]; split; auto;
            try (intros m' l' k' [H|H]; discriminate).
          all: try (intros m' l' k' [H|H]; try discriminate; injection H as -> -> -> ->; eapply IHp; eauto; fail).
          all: try (apply UP; reflexivity).
          all: try (intros IN; unfold upd; destruct (Nat.eqb id id0) eqn:Q; [apply Nat.eqb_eq in Q; subst id0; cbn; eapply IHp; right; reflexivity|]; apply IH1; apply in_app_or in IN as [IN|[->|[]]]; [auto|rewrite Nat.eqb_refl in Q; discriminate]).
        }
        destruct Y as [Y1 Y2]. split; auto. exists p', r. auto. }
    destruct K as (K1 & p' & r' & K2 & K3 & K4). split; auto. intros x q s N. rewrite K2, nth_replace in N. destruct (Nat.eqb x t) eqn:Q; [|eauto].
    apply Nat.eqb_eq in Q. subst. rewrite E in N. injection N as <- <-. auto.
Qed.
Theorem log_filter_concurrent progs c t id n l cond rest :
  all_named progs id n -> reachable progs c -> quiescent c -> nth_error (cthreads c) t = Some (PIdle, Log id n l cond :: rest) ->
  exists c', solo t c c' /\ nth_error (cthreads c') t = Some (PIdle, rest) /\ getLevel c' = getLevel c /\   cout c' = (t, (id, cond && (getLevel c <=? l) && (match n with [] => true | _ => isNamedStreamEnabled c n end))) :: cout c.
Proof.
  intros AN R Q N. pose proof (inv_reachable _ _ R) as I.
  assert (PI : forall x, pcof c x = PIdle).
  { intros x. unfold pcof. destruct (nth_error (cthreads c) x) as [[p r]|] eqn:E; auto. unfold quiescent in Q. rewrite Forall_forall in Q. apply (Q (p, r)). eapply nth_error_In. eauto. }
  assert (HL : wL (cw c) = None). { destruct (wL (cw c)) as [x|] eqn:E; auto. apply (invL _ I) in E. rewrite PI in E. discriminate. }
  assert (HS : wS (cw c) = None). { destruct (wS (cw c)) as [x|] eqn:E; auto. apply (invS _ I) in E. rewrite PI in E. discriminate. }
  assert (CO : forall x, In x (greg (wg (cw c))) -> coh (wg (cw c)) x).
  { intros x IN. destruct (invC _ I x IN) as [(y & W)|[_ [H|(y & W)]]]; auto; rewrite PI in W; destruct W. }
  destruct (solo_exec c t _ rest N HL HS) as (c' & S & W & TH & OUT). exists c'. split; auto.
  split; [rewrite TH, nth_replace, Nat.eqb_refl, N; auto|].
  set (g := wg (cw c)) in *. cbn [exec] in *. destruct (define_location g id n l cond) as [g' b] eqn:D. cbn [fst snd] in *. unfold getLevel, isNamedStreamEnabled. fold g. rewrite W, OUT. cbn [wg].
  (* the location after the possible first execution *)
  assert (L1 : exists g1, g1 = (if linit (gtable g id) then g else initialize g id n l) /\ glevel g1 = glevel g /\ gstreams g1 = gstreams g /\ coh g1 id /\ lname (gtable g1 id) = n).
  { eexists. split; [reflexivity|]. destruct (linit (gtable g id)) eqn:LI.
    - repeat split; auto.
      + apply CO. apply (invI _ I). auto.
      + apply (names_reachable progs id n c AN R). apply (invI _ I). auto.
    - unfold initialize. rewrite LI. set (g1 := mkG (glevel g) (gstreams g) (upd (gtable g) id (mkLoc false (lenabled (gtable g id)) l n)) (greg g ++ [id])).
      destruct (check_static g1 id) as (S1 & S2 & S3 & S4). destruct (S4 id) as (_ & _ & LN). pose proof (check_coh g1 id id (or_intror eq_refl)) as CH.
      cbn zeta. cbn [set_loc glevel gstreams gtable]. rewrite upd_same. cbn [with_init lname]. rewrite LN. unfold g1. cbn [gtable]. rewrite upd_same. repeat split; auto.
      unfold coh in *. cbn [set_loc gtable]. rewrite upd_same. exact CH. }
  destruct L1 as (g1 & E1 & GL & GS & CH & LN). unfold define_location in D. rewrite <- E1 in D. clear E1. injection D as <- <-.
  set (g2 := if Nat.eqb (llevel (gtable g1 id)) l then g1 else check (set_loc g1 id (with_level (gtable g1 id) l)) id).
  assert (L2 : glevel g2 = glevel g /\ gstreams g2 = gstreams g /\ coh g2 id /\ lname (gtable g2 id) = n /\ llevel (gtable g2 id) = l).
  { unfold g2. destruct (Nat.eqb (llevel (gtable g1 id)) l) eqn:E. { apply Nat.eqb_eq in E. auto. }
    set (g3 := set_loc g1 id (with_level (gtable g1 id) l)). destruct (check_static g3 id) as (S1 & S2 & S3 & S4). destruct (S4 id) as (_ & LL & LN').
    assert (T : gtable g3 id = with_level (gtable g1 id) l) by (unfold g3; cbn [set_loc gtable]; apply upd_same). rewrite T in LL, LN'. rewrite S1, S2, LL, LN'.
    repeat split; auto. apply check_coh. auto. }
  destruct L2 as (A1 & A2 & A3 & A4 & A5). split; auto. f_equal. f_equal. f_equal. rewrite A3. unfold enabled_value. rewrite A1, A2, A4, A5.
  rewrite andb_comm, <- andb_assoc. reflexivity.
Qed.

(** C60: no interleaving of configuration calls and log statements deadlocks -- false: one thread enables a stream while another
    executes a log statement of a named stream for the first time. *)
Theorem logging_deadlock_refuted : exists c, reachable [[Enable (str "vision")]; [Log 0 (str "sm.vision") 8 true]] c /\ stuck c.
Proof.
  set (P := [[Enable (str "vision")]; [Log 0 (str "sm.vision") 8 true]]).
  assert (RUN : forall ts c c', reachable P c -> fold_left (fun o t => match o with Some x => cstep x t | None => None end) ts (Some c) = Some c' -> reachable P c').
  { induction ts as [|t ts IH]; intros c c' R H; cbn [fold_left] in H; [injection H as <-; auto|]. destruct (cstep c t) as [c1|] eqn:S.
    - eapply IH; [|exact H]. econstructor; eauto.
    - exfalso. clear - H. induction ts; cbn in H; auto. discriminate. }
  (* thread 1: begins, finds itself uninitialised, locks the locations, checks the level; thread 0: begins, locks the streams *)
  destruct (fold_left (fun o t => match o with Some x => cstep x t | None => None end) [1; 1; 1; 1; 0; 0] (Some (start P))) as [c|] eqn:E; [|vm_compute in E; discriminate].
  exists c. split; [eapply RUN; [constructor|exact E]|]. vm_compute in E. injection E as <-. split.
  - intros F. inversion F. discriminate.
  - intros [|[|[|t]]]; reflexivity.
Qed.
(** That is the only way to deadlock: whenever nothing can move although somebody has work left, one thread is inside
    enableNamedStream/disableNamedStream waiting for the locations and another is deciding a log location and waiting for the streams. *)
Theorem logging_deadlock_partial progs c : reachable progs c -> stuck c ->
  exists t1 t2 i k, t1 <> t2 /\ pcof c t1 = PNotify KUnlockS /\ wS (cw c) = Some t1 /\ pcof c t2 = PStream i k /\ wL (cw c) = Some t2.
Proof. intros R. apply stuck_cycle. eapply inv_reachable; eauto. Qed.
(** In particular there is no deadlock if streams are never enabled or disabled while the threads run, nor if nothing but that happens. *)
Theorem logging_no_stream_changes_partial progs c : Forall (Forall (fun o => streamop o = false)) progs -> reachable progs c -> ~ stuck c.
Proof.
  intros F R ST. destruct (logging_deadlock_partial progs c R ST) as (t1 & t2 & i & k & _ & P1 & _). unfold pcof in P1.
  destruct (nth_error (cthreads c) t1) as [[p r]|] eqn:E; [|discriminate]. subst p. destruct (no_streams_inv progs c F R t1 _ _ E) as [X _]. discriminate.
Qed.
Theorem logging_only_stream_changes_partial progs c : Forall (Forall (fun o => streamop o = true)) progs -> reachable progs c -> ~ stuck c.
Proof.
  intros F R ST. destruct (logging_deadlock_partial progs c R ST) as (t1 & t2 & i & k & NE & _ & W & P2 & _). pose proof P2 as P3. unfold pcof in P2.
  destruct (nth_error (cthreads c) t2) as [[p r]|] eqn:E; [|discriminate]. subst p. destruct (only_streams_inv progs c F R t2 _ _ E) as [[X|X] _]; [discriminate|].
  assert (wS (cw c) = Some t2); [|congruence]. apply (invS c (inv_reachable _ _ R)). rewrite P3. unfold streampc in X. apply orb_prop in X as [X|X]; [exact X|discriminate].
Qed.

(** Non-vacuity *)
Example ex_filter : answer [SetLevel 3; Log 4 (str "sm.a") 5 true; Enable (str "a"); SetLevel 6; SetLevel 2] (Log 4 (str "sm.a") 5 true) = Some true /\
  named [SetLevel 3; Log 4 (str "sm.a") 5 true; Enable (str "a"); SetLevel 6; SetLevel 2] 4 (str "sm.a").
Proof. split; [vm_compute; reflexivity|]. intros m l c H. repeat destruct H as [H|H]; try discriminate; [injection H as <- _ _; auto|contradiction]. Qed.
Example ex_concurrent : exists c, reachable [[SetLevel 2]; [Log 0 (str "sm") 3 true]] c /\ quiescent c /\ getLevel c = 2.
Proof.
  set (P := [[SetLevel 2]; [Log 0 (str "sm") 3 true]]).
  destruct (cstep (start P) 0) as [c1|] eqn:S1; [|discriminate]. destruct (cstep c1 0) as [c2|] eqn:S2; [|injection S1 as <-; discriminate].
  assert (E3 : exists c3, cstep c2 0 = Some c3) by (injection S1 as <-; injection S2 as <-; eexists; reflexivity). destruct E3 as (c3 & S3).
  assert (E4 : exists c4, cstep c3 0 = Some c4) by (injection S1 as <-; injection S2 as <-; injection S3 as <-; eexists; reflexivity). destruct E4 as (c4 & S4).
  exists c4. split; [repeat (econstructor; [|eassumption]); constructor|]. injection S1 as <-; injection S2 as <-; injection S3 as <-; injection S4 as <-. split; [|reflexivity].
  repeat constructor.
Qed.

Print Assumptions log_filter_up_to_date.
Print Assumptions log_filter_dynamic_name_refuted.
Print Assumptions log_filter_concurrent.
Print Assumptions logging_deadlock_refuted.
Print Assumptions logging_deadlock_partial.
Print Assumptions logging_no_stream_changes_partial.
Print Assumptions logging_only_stream_changes_partial.
