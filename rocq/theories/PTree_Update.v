(** update: lemmas. *)
From Verif Require Import PTree_Model PTree_Proofs Strings_Model.
Open Scope nat_scope.

Section Ind.
  Variable P : ptree -> Prop.
  Hypothesis H : forall d ks, Forall (fun kc => P (snd kc)) ks -> P (Node d ks).
  Fixpoint ptree_ind' (t : ptree) : P t :=
    match t with
    | Node d ks => H d ks ((fix go l : Forall (fun kc => P (snd kc)) l :=
                     match l with [] => Forall_nil _ | kc :: r => Forall_cons kc (ptree_ind' (snd kc)) (go r) end) ks)
    end.
End Ind.

(** Keys the '.'-separated paths of update can address: non-empty, without '.', different among siblings. *)
Fixpoint addressable (t : ptree) : Prop :=
  match t with
  | Node d ks => NoDup (map fst ks) /\
      (fix all l : Prop := match l with [] => True | (k, c) :: r => (k <> [] /\ ~ In DOT k) /\ addressable c /\ all r end) ks
  end.
Lemma addressable_inv d ks : addressable (Node d ks) ->
  NoDup (map fst ks) /\ Forall (fun kc => (fst kc <> [] /\ ~ In DOT (fst kc)) /\ addressable (snd kc)) ks.
Proof.
  simpl. intros [N A]. split; auto. clear N. induction ks as [|[k c] r IH]; constructor; simpl in *; try tauto.
Qed.

(** The keys and values of a tree, in the order of traversal. *)
Fixpoint entries (b : list bytes) (t : ptree) : list (list bytes * bytes) :=
  match t with
  | Node d ks =>
      (b, d) :: (fix go l := match l with [] => [] | (k, c) :: r => entries (b ++ [k]) c ++ go r end) ks
  end.
Definition kid_entries b (ks : list (bytes * ptree)) := concat (map (fun kc => entries (b ++ [fst kc]) (snd kc)) ks).
Lemma entries_node b d ks : entries b (Node d ks) = (b, d) :: kid_entries b ks.
Proof.
  simpl. f_equal. unfold kid_entries. induction ks as [|[k c] r IH]; auto. simpl. f_equal. exact IH.
Qed.
Lemma traverse_node path d ks : traverse path (Node d ks) =
  (path, d) :: concat (map (fun kc => traverse (path_div path (fst kc)) (snd kc)) ks).
Proof. simpl. f_equal. induction ks as [|[k c] r IH]; auto. simpl. f_equal. exact IH. Qed.

Fixpoint dot_text (p : list bytes) : bytes :=
  match p with [] => [] | [w] => w | w :: r => w ++ DOT :: dot_text r end.
Definition dot_ok (w : bytes) := w <> [] /\ ~ In DOT w.
Lemma dot_components p : Forall dot_ok p -> components DOT (dot_text p) = p /\ ends_with DOT (dot_text p) = false.
Proof.
  induction p as [|w p IH]; intros H; [split; reflexivity|]. inversion H as [|? ? Hw Hp]; subst. destruct Hw as [W1 W2].
  destruct p as [|w' p]; [split; [apply components_clean; auto|apply ends_with_clean; auto]|].
  destruct IH as [IC IE]; auto.
  change (dot_text (w :: w' :: p)) with (w ++ (DOT :: dot_text (w' :: p))). split.
  - rewrite components_app, IC. rewrite ends_with_clean by auto. rewrite components_clean by auto. destruct w; [congruence|auto].
  - rewrite ends_with_app by discriminate. change (DOT :: dot_text (w' :: p)) with ([DOT] ++ dot_text (w' :: p)).
    rewrite ends_with_app; auto. inversion Hp as [|? ? [W1' _] _]; subst. destruct p; cbn [dot_text]; auto. destruct w'; discriminate.
Qed.
Lemma dot_text_nonnil p : Forall dot_ok p -> p <> [] -> dot_text p <> [].
Proof.
  intros H N. destruct p as [|w p]; [congruence|]. inversion H as [|? ? [W _] _]; subst. destruct p; auto. destruct w; [congruence|discriminate].
Qed.
Lemma dot_text_snoc p w : Forall dot_ok p -> w <> [] -> path_div (dot_text p) w = dot_text (p ++ [w]).
Proof.
  intros H W. unfold path_div. destruct w as [|c w]; [congruence|].
  destruct p as [|x p]; [auto|]. pose proof (dot_text_nonnil (x :: p) H ltac:(discriminate)) as NN.
  destruct (dot_text (x :: p)) as [|y l] eqn:E; [congruence|]. rewrite <- E. clear NN E y l. revert x H.
  induction p as [|x' p IH]; intros x H; auto. inversion H; subst.
  change (dot_text (x :: x' :: p)) with (x ++ DOT :: dot_text (x' :: p)).
  change (dot_text ((x :: x' :: p) ++ [c :: w])) with (x ++ DOT :: dot_text ((x' :: p) ++ [c :: w])).
  rewrite <- IH by auto. rewrite <- app_assoc. auto.
Qed.
Lemma traverse_entries t : forall b, addressable t -> Forall dot_ok b ->
  traverse (dot_text b) t = map (fun e => (dot_text (fst e), snd e)) (entries b t).
Proof.
  induction t as [d ks IH] using ptree_ind'. intros b A B. apply addressable_inv in A as [ND A].
  rewrite traverse_node, entries_node. cbn [map fst snd]. f_equal. unfold kid_entries. rewrite concat_map, map_map. f_equal.
  clear ND. induction ks as [|[k c] r IHr]; auto. inversion IH as [|? ? I1 I2]; subst. inversion A as [|? ? [[K1 K2] A1] A2]; subst.
  cbn [map fst snd] in *. f_equal; [|apply IHr; auto].
  rewrite dot_text_snoc by auto. apply I1; auto. apply Forall_app. split; auto. constructor; [split; auto|auto].
Qed.
Lemma entries_ok t : forall b, addressable t -> Forall dot_ok b -> Forall (fun e => Forall dot_ok (fst e)) (entries b t).
Proof.
  induction t as [d ks IH] using ptree_ind'. intros b A B. apply addressable_inv in A as [ND A].
  rewrite entries_node. constructor; auto. unfold kid_entries. apply Forall_concat. clear ND.
  induction ks as [|[k c] r IHr]; simpl; constructor; inversion IH as [|? ? I1 I2]; subst; inversion A as [|? ? [[K1 K2] A1] A2]; subst; auto.
  apply I1; auto. apply Forall_app. split; auto. constructor; [split; auto|auto].
Qed.
(** The entries are exactly the keys of the tree with their values. *)
Lemma find_kid_in ks k c : NoDup (map fst ks) -> (find_kid ks k = Some c <-> In (k, c) ks).
Proof.
  intros N. induction ks as [|[k' c'] r IH]; simpl; [split; [discriminate|tauto]|]. inversion N as [|? ? N1 N2]; subst.
  destruct (bytes_eqb k' k) eqn:E.
  - apply bytes_eqb_eq in E. subst k'. split.
    + intros X. injection X as ->. auto.
    + intros [X|X]; [congruence|]. exfalso. apply N1. apply in_map_iff. exists (k, c); auto.
  - rewrite IH by auto. split; auto. intros [X|X]; auto. injection X as -> ->. rewrite bytes_eqb_refl in E. discriminate.
Qed.
Lemma in_entries t : forall b q d, addressable t -> (In (q, d) (entries b t) <-> exists r, q = b ++ r /\ value_at t r = Some d).
Proof.
  induction t as [d0 ks IH] using ptree_ind'. intros b q d A. apply addressable_inv in A as [ND A].
  rewrite entries_node. cbn [In]. unfold kid_entries. rewrite in_concat. split.
  - intros [X|(l & Hl & X)].
    + injection X as <- <-. exists []. rewrite app_nil_r. split; auto.
    + apply in_map_iff in Hl as ([k c] & <- & Hin). cbn [fst snd] in *.
      rewrite Forall_forall in IH, A. specialize (A _ Hin) as [_ Ac]. apply (IH _ Hin _ _ _ Ac) in X as (r & -> & V).
      exists (k :: r). rewrite <- app_assoc. split; auto. unfold value_at in *. simpl.
      rewrite (proj2 (find_kid_in ks k c ND) Hin). auto.
  - intros (r & -> & V). destruct r as [|k r].
    + left. unfold value_at in V. simpl in V. injection V as <-. rewrite app_nil_r. auto.
    + right. unfold value_at in V. simpl in V. destruct (find_kid ks k) as [c|] eqn:F; [|discriminate].
      apply (find_kid_in ks k c ND) in F. exists (entries (b ++ [k]) c). split.
      * apply in_map_iff. exists (k, c). auto.
      * rewrite Forall_forall in IH, A. specialize (A _ F) as [_ Ac]. apply (IH _ F); auto. exists r. rewrite <- app_assoc. auto.
Qed.
Lemma entries_prefix t : forall b e, In e (entries b t) -> exists r, fst e = b ++ r.
Proof.
  induction t as [d0 ks IH] using ptree_ind'. intros b e. rewrite entries_node. intros [<-|X].
  - exists []. rewrite app_nil_r. auto.
  - unfold kid_entries in X. apply in_concat in X as (l & Hl & X). apply in_map_iff in Hl as ([k c] & <- & Hin).
    rewrite Forall_forall in IH. apply (IH _ Hin) in X as (r & ->). exists (k :: r). rewrite <- app_assoc. auto.
Qed.
Lemma NoDup_app_intro {A} (l1 l2 : list A) : NoDup l1 -> NoDup l2 -> (forall x, In x l1 -> ~ In x l2) -> NoDup (l1 ++ l2).
Proof.
  induction 1 as [|x l N1 N IH]; intros N2 D; auto. simpl. constructor.
  - intros X. apply in_app_or in X as [X|X]; auto. apply (D x); [left; auto|auto].
  - apply IH; auto. intros y Hy. apply D. right; auto.
Qed.
Lemma entries_nodup t : forall b, addressable t -> NoDup (map fst (entries b t)).
Proof.
  induction t as [d0 ks IH] using ptree_ind'. intros b A. apply addressable_inv in A as [ND A].
  rewrite entries_node. cbn [map fst]. constructor.
  - intros X. apply in_map_iff in X as (e & E & X). unfold kid_entries in X. apply in_concat in X as (l & Hl & X).
    apply in_map_iff in Hl as ([k c] & <- & Hin). apply entries_prefix in X as (r & R). rewrite E in R.
    rewrite <- app_assoc in R. symmetry in R. rewrite <- (app_nil_r b) in R at 2. apply app_inv_head in R. discriminate.
  - unfold kid_entries. induction ks as [|[k c] r IHr]; simpl; [constructor|].
    inversion IH as [|? ? I1 I2]; subst. inversion A as [|? ? [K A1] A2]; subst. inversion ND as [|? ? N1 N2]; subst.
    rewrite map_app. apply NoDup_app_intro; auto.
    intros p Hp Hq. apply in_map_iff in Hp as (e1 & E1 & H1). apply in_map_iff in Hq as (e2 & E2 & H2).
    apply in_concat in H2 as (l & Hl & H2). apply in_map_iff in Hl as ([k' c'] & <- & Hin). cbn [fst snd] in *.
    apply entries_prefix in H1 as (r1 & R1). apply entries_prefix in H2 as (r2 & R2).
    rewrite E1 in R1. rewrite E2, R1 in R2. rewrite <- !app_assoc in R2. apply app_inv_head in R2. simpl in R2. injection R2 as -> _.
    apply N1. apply in_map_iff. exists (k', c'). auto.
Qed.

(** ** folding the puts *)
Definition active (ign : bool) (e : list bytes * bytes) : Prop := ign && blank (snd e) = false.
Lemma put_dot t p v : Forall dot_ok p -> put t DOT (dot_text p) v = Ok (put_comps t p v).
Proof. intros H. unfold put. destruct (dot_components p H) as [-> ->]. destruct (walk t p); auto. Qed.
Lemma getopt_dot t p : Forall dot_ok p -> get_optional parse_string t DOT (dot_text p) = value_at t p.
Proof. intros H. unfold get_optional, value_at. destruct (dot_components p H) as [-> _]. destruct (walk t p); auto. Qed.

Definition texts (E : list (list bytes * bytes)) := map (fun e => (dot_text (fst e), snd e)) E.
(** merging entries with distinct paths *)
Lemma merge_all ign E : forall t, Forall (fun e => Forall dot_ok (fst e)) E -> NoDup (map fst E) ->
  exists t', update_all true ign t (texts E) = (t', Ok tt) /\
    (forall p d, In (p, d) E -> active ign (p, d) -> value_at t' p = Some d) /\
    (forall q x, value_at t q = Some x -> (forall d, In (q, d) E -> ~ active ign (q, d)) -> value_at t' q = Some x) /\
    (forall q, value_at t q = None -> (forall d, In (q, d) E -> ~ active ign (q, d)) ->
       ((exists e, In e E /\ active ign e /\ is_prefix q (fst e)) -> value_at t' q = Some []) /\
       ((forall e, In e E -> active ign e -> ~ is_prefix q (fst e)) -> value_at t' q = None)).
Proof.
  induction E as [|[p d] E IH]; intros t OK ND.
  - exists t. simpl. repeat split; auto; try tauto. intros (e & [] & _).
  - inversion OK as [|? ? O1 O2]; subst. inversion ND as [|? ? N1 N2]; subst. cbn [texts map update_all update1 fst snd] in *.
    fold (texts E). destruct (ign && blank d) eqn:B.
    + destruct (IH t O2 N2) as (t' & U & V1 & V2 & V3). exists t'. split; auto. repeat split.
      * intros p' d' [X|X] Ac; [injection X as <- <-; unfold active in Ac; simpl in Ac; congruence|eauto].
      * intros q x Hx Hq. apply V2; auto. intros d' Hd. apply Hq. right; auto.
      * intros (e & [<-|He] & Ac & Pr); [unfold active in Ac; simpl in Ac; congruence|].
        apply V3; auto. { intros d' Hd. apply H0. right; auto. } exists e; auto.
      * intros X. apply V3; auto. { intros d' Hd. apply H0. right; auto. } intros e He. apply X. right; auto.
    + cbn [negb andb]. rewrite put_dot by auto.
      destruct (IH (put_comps t p d) O2 N2) as (t' & U & V1 & V2 & V3). exists t'. split; auto.
      assert (Ap : active ign (p, d)) by exact B.
      repeat split.
      * intros p' d' [X|X] Ac; [|eauto]. injection X as <- <-. apply V2; [apply put_same|].
        intros d' Hd. exfalso. apply N1. apply in_map_iff. exists (p, d'). auto.
      * intros q x Hx Hq. assert (q <> p) by (intros ->; apply (Hq d); [left; auto|auto]).
        apply V2; [|intros d' Hd; apply Hq; right; auto].
        rewrite put_value_at. destruct (path_eq_dec q p); [congruence|]. rewrite Hx. auto.
      * intros (e & He & Ac & Pr). assert (q <> p) by (intros ->; apply (H0 d); [left; auto|auto]).
        assert (VP : value_at (put_comps t p d) q = if pre q p then Some [] else None).
        { rewrite put_value_at. destruct (path_eq_dec q p); [congruence|]. rewrite H. auto. }
        destruct (pre q p) eqn:PQ.
        -- apply V2; auto. intros d' Hd. apply H0. right; auto.
        -- destruct He as [<-|He]; [apply pre_spec in Pr; cbn [fst] in Pr; congruence|].
           apply V3; auto; [intros d' Hd; apply H0; right; auto|]. exists e. auto.
      * intros X. assert (q <> p) by (intros ->; apply (H0 d); [left; auto|auto]).
        apply V3; [|intros d' Hd; apply H0; right; auto|intros e He; apply X; right; auto].
        rewrite put_value_at. destruct (path_eq_dec q p); [congruence|]. rewrite H.
        destruct (pre q p) eqn:PQ; auto. apply pre_spec in PQ. exfalso. apply (X (p, d)); [left; auto|auto|auto].
Qed.

(** updateOnly: existing keys only *)
Lemma put_existing t p v q : value_at t p <> None ->
  value_at (put_comps t p v) q = if path_eq_dec q p then Some v else value_at t q.
Proof.
  intros H. rewrite put_value_at. destruct (path_eq_dec q p); auto. destruct (value_at t q) eqn:E; auto.
  destruct (pre q p) eqn:P; auto. exfalso. apply pre_spec in P as (r & Hr & ->).
  apply walk_value in E. unfold value_at in H. rewrite walk_app, E in H. apply H. reflexivity.
Qed.
Lemma update_only_all ign E : forall t, Forall (fun e => Forall dot_ok (fst e)) E -> NoDup (map fst E) ->
  forall t' r, update_all false ign t (texts E) = (t', r) ->
    (forall q, value_at t' q = None <-> value_at t q = None) /\
    (forall q, value_at t' q = value_at t q \/ exists d, In (q, d) E /\ active ign (q, d) /\ value_at t' q = Some d) /\
    ((forall e, In e E -> active ign e -> value_at t (fst e) <> None) ->
       r = Ok tt /\ (forall p d, In (p, d) E -> active ign (p, d) -> value_at t' p = Some d)) /\
    ((exists e, In e E /\ active ign e /\ value_at t (fst e) = None) -> r = KeyNotFound).
Proof.
  induction E as [|[p d] E IH]; intros t OK ND t' r U.
  - simpl in U. injection U as <- <-. split; [tauto|]. split; [auto|]. split; [split; [auto|intros ? ? []]|]. intros (e & X & _). destruct X.
  - inversion OK as [|? ? O1 O2]; subst. inversion ND as [|? ? N1 N2]; subst. cbn [texts map update_all update1 fst snd] in *.
    fold (texts E) in U. destruct (ign && blank d) eqn:B.
    + destruct (IH t O2 N2 _ _ U) as (V1 & V2 & V3 & V4). split; [auto|]. split; [|split].
      * intros q. destruct (V2 q) as [X|(d' & I & A & X)]; auto. right. exists d'. split; [right; auto|auto].
      * intros H. destruct V3 as [R V]; [intros e He; apply H; right; auto|]. split; auto.
        intros p' d' [X|X] Ac; [injection X as <- <-; unfold active in Ac; simpl in Ac; congruence|auto].
      * intros (e & [<-|He] & Ac & X); [unfold active in Ac; simpl in Ac; congruence|]. apply V4. exists e. auto.
    + rewrite getopt_dot in U by auto. cbn [negb andb] in U. assert (Ap : active ign (p, d)) by exact B.
      destruct (value_at t p) as [x|] eqn:Vp.
      * rewrite put_dot in U by auto. destruct (IH (put_comps t p d) O2 N2 _ _ U) as (V1 & V2 & V3 & V4).
        assert (PE : forall q, value_at (put_comps t p d) q = if path_eq_dec q p then Some d else value_at t q).
        { intros q. apply put_existing. congruence. }
        split; [|split; [|split]].
        -- intros q. rewrite V1, PE. destruct (path_eq_dec q p) as [->|]; [split; congruence|tauto].
        -- intros q. destruct (V2 q) as [X|(d' & I & A & X)]; [|right; exists d'; split; [right; auto|auto]].
           rewrite PE in X. destruct (path_eq_dec q p) as [->|]; [|auto]. right. exists d. split; [left; auto|auto].
        -- intros H. destruct V3 as [R V].
           { intros e He Ac. rewrite PE. destruct (path_eq_dec (fst e) p); [congruence|]. apply H; [right; auto|auto]. }
           split; auto. intros p' d' [X|X] Ac; auto. injection X as <- <-.
           destruct (V2 p) as [X|(d' & I & A & X)].
           ++ rewrite X, PE. destruct (path_eq_dec p p); congruence.
           ++ exfalso. apply N1. apply in_map_iff. exists (p, d'). auto.
        -- intros (e & [<-|He] & Ac & X); [cbn [fst] in X; congruence|]. apply V4. exists e. split; auto. split; auto.
           rewrite PE. destruct (path_eq_dec (fst e) p) as [E1|]; auto. exfalso. apply N1. apply in_map_iff. exists e. auto.
      * injection U as <- <-. split; [tauto|]. split; [auto|]. split; auto.
        intros H. exfalso. apply (H (p, d)); [left; auto|auto|auto].
Qed.
