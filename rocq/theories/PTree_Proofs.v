(** Auxiliary lemmas for the property tree. *)
From Verif Require Import PTree_Model Strings_Model Strings_Proofs.
Open Scope nat_scope.

Lemma bytes_eqb_neq a b : a <> b -> bytes_eqb a b = false.
Proof. intros H. destruct (bytes_eqb a b) eqn:E; auto. apply bytes_eqb_eq in E. congruence. Qed.
Lemma bytes_eq_dec (a b : bytes) : {a = b} + {a <> b}.
Proof. destruct (bytes_eqb a b) eqn:E; [left; apply bytes_eqb_eq; auto|right; intros ->; rewrite bytes_eqb_refl in E; discriminate]. Qed.
Lemma path_eq_dec (p q : list bytes) : {p = q} + {p <> q}.
Proof. apply (list_eq_dec bytes_eq_dec). Qed.

Lemma find_set_kid_same ks k f :
  find_kid (set_kid ks k f) k = Some (f (match find_kid ks k with Some c => c | None => pempty end)).
Proof.
  induction ks as [|[k' c] r IH]; simpl; [rewrite bytes_eqb_refl; auto|].
  destruct (bytes_eqb k' k) eqn:E; simpl; rewrite E; auto.
Qed.
Lemma find_set_kid_other ks k k' f : k <> k' -> find_kid (set_kid ks k f) k' = find_kid ks k'.
Proof.
  intros H. induction ks as [|[x c] r IH]; simpl; [rewrite bytes_eqb_neq by auto; auto|].
  destruct (bytes_eqb x k) eqn:E; simpl.
  - apply bytes_eqb_eq in E. subst x. rewrite bytes_eqb_neq by auto. auto.
  - destruct (bytes_eqb x k'); auto.
Qed.

Definition value_at (t : ptree) (p : list bytes) : option bytes := option_map pdata (walk t p).
Definition is_prefix (q p : list bytes) : Prop := exists r, r <> [] /\ p = q ++ r.

Lemma walk_app t p q : walk t (p ++ q) = match walk t p with Some c => walk c q | None => None end.
Proof. revert t; induction p as [|k p IH]; intros t; simpl; auto. destruct (find_kid (pkids t) k); auto. Qed.

Lemma walk_pempty p : walk pempty p = match p with [] => Some pempty | _ => None end.
Proof. destruct p; auto. Qed.

Lemma put_same p : forall t v, value_at (put_comps t p v) p = Some v.
Proof.
  unfold value_at. induction p as [|k p IH]; intros t v; simpl; auto.
  rewrite find_set_kid_same. apply IH.
Qed.

Lemma put_other p : forall t v q, q <> p ->
  value_at (put_comps t p v) q =
  match value_at t q with
  | Some x => Some x
  | None => if (fix pre (a b : list bytes) := match a, b with
                | [], [] => false | [], _ => true | _, [] => false
                | x :: a', y :: b' => bytes_eqb x y && pre a' b' end) q p then Some [] else None
  end.
Proof.
  unfold value_at. induction p as [|k p IH]; intros t v q Hq.
  - destruct q as [|k' q]; [congruence|]. simpl. destruct (find_kid (pkids t) k') as [c|]; auto.
    destruct (walk c q); auto.
  - destruct q as [|k' q]; simpl; [auto|].
    destruct (bytes_eq_dec k' k) as [->|N].
    + rewrite find_set_kid_same, bytes_eqb_refl. simpl.
      rewrite IH by congruence.
      destruct (find_kid (pkids t) k) as [c|]; auto.
      destruct q; [|reflexivity]. simpl. destruct p; [congruence|]. auto.
    + rewrite find_set_kid_other by congruence. rewrite (bytes_eqb_neq k' k) by auto. simpl.
      destruct (find_kid (pkids t) k') as [c|]; auto. destruct (walk c q); auto.
Qed.
Fixpoint pre (a b : list bytes) : bool :=
  match a, b with
  | [], [] => false | [], _ => true | _, [] => false
  | x :: a', y :: b' => bytes_eqb x y && pre a' b' end.
Lemma pre_spec a b : pre a b = true <-> is_prefix a b.
Proof.
  revert b; induction a as [|x a IH]; intros [|y b]; simpl; split; intros H; try discriminate.
  - destruct H as (r & Hr & H). simpl in H. congruence.
  - exists (y :: b). split; [discriminate|auto].
  - auto.
  - destruct H as (r & Hr & H). discriminate.
  - apply andb_true_iff in H as [E P]. apply bytes_eqb_eq in E. subst y. apply IH in P as (r & Hr & ->). exists r; split; auto.
  - destruct H as (r & Hr & H). injection H as -> ->. rewrite bytes_eqb_refl. simpl. apply IH. exists r; split; auto.
Qed.
(** The complete effect of a put on the values at all paths. *)
Lemma put_value_at t p v q :
  value_at (put_comps t p v) q =
  if path_eq_dec q p then Some v
  else match value_at t q with Some x => Some x | None => if pre q p then Some [] else None end.
Proof.
  destruct (path_eq_dec q p) as [->|N]; [apply put_same|]. rewrite put_other by auto. reflexivity.
Qed.

Lemma walk_value t p : walk t p = None <-> value_at t p = None.
Proof. unfold value_at. destruct (walk t p); simpl; split; congruence. Qed.

(** ** components of a path text *)
Lemma components_nonnil sep c a : components sep (c :: a) <> [].
Proof. cbn [components]. destruct (N.eqb c sep); [discriminate|]. destruct (components sep a); discriminate. Qed.
Lemma components_app sep a b : components sep (a ++ sep :: b) =
  (if ends_with sep a then components sep a ++ [[]] else match a with [] => [[]] | _ => components sep a end) ++ components sep b.
Proof.
  induction a as [|c a IH]; [cbn; rewrite N.eqb_refl; auto|].
  destruct a as [|c' a'].
  { cbn. rewrite N.eqb_refl. destruct (N.eqb c sep) eqn:E; reflexivity. }
  change ((c :: c' :: a') ++ sep :: b) with (c :: ((c' :: a') ++ sep :: b)).
  cbn [components] in *. fold components in *.
  change (ends_with sep (c :: c' :: a')) with (ends_with sep (c' :: a')).
  change (components sep ((c' :: a') ++ sep :: b)) with (components sep (c' :: (a' ++ sep :: b))) in *.
  pose proof (components_nonnil sep c' a') as NN. cbn [components] in NN.
  set (X := if N.eqb c' sep then [] :: components sep a' else match components sep a' with [] => [[c']] | h :: t => (c' :: h) :: t end) in *.
  cbn [components app] in *. rewrite IH.
  destruct (N.eqb c sep); destruct (ends_with sep (c' :: a')); destruct X; try congruence; reflexivity.
Qed.
Lemma components_clean sep w : ~ In sep w -> w <> [] -> components sep w = [w].
Proof.
  induction w as [|c w IH]; intros H E; [congruence|]. simpl.
  destruct (N.eqb c sep) eqn:Ec; [apply N.eqb_eq in Ec; subst; exfalso; apply H; left; auto|].
  destruct w as [|c' w]; auto. rewrite IH; auto; [intros X; apply H; right; auto|discriminate].
Qed.
Lemma ends_with_snoc sep a c : ends_with sep (a ++ [c]) = N.eqb c sep.
Proof. unfold ends_with. destruct (a ++ [c]) eqn:E; [destruct a; discriminate|]. rewrite <- E, last_last. auto. Qed.
Lemma ends_with_app sep a b : b <> [] -> ends_with sep (a ++ b) = ends_with sep b.
Proof.
  intros H. destruct (exists_last H) as (b' & x & ->). rewrite app_assoc, !ends_with_snoc. auto.
Qed.
Lemma ends_with_clean sep w : ~ In sep w -> ends_with sep w = false.
Proof.
  intros H. destruct w as [|c w]; auto. destruct (exists_last (l := c :: w)) as (b & x & E); [discriminate|].
  rewrite E in *. rewrite ends_with_snoc. apply N.eqb_neq. intros ->. apply H. apply in_or_app. right; left; auto.
Qed.

(** ** views *)
Lemma ends_with_true c s : ends_with c s = true -> exists p, s = p ++ [c].
Proof.
  destruct s as [|x s]; [discriminate|]. destruct (exists_last (l := x :: s)) as (b & y & E); [discriminate|].
  rewrite E, ends_with_snoc. intros H. apply N.eqb_eq in H. subst. eauto.
Qed.
Lemma ensure_eq s : ensureTrailingBackslash s = if ends_with SLASH s then s else s ++ [SLASH].
Proof.
  destruct (ensureTrailing_cases s) as [[E (p & ->)]|[E N]]; rewrite E.
  - rewrite ends_with_snoc, N.eqb_refl. auto.
  - destruct (ends_with SLASH s) eqn:W; auto. apply ends_with_true in W as (p & ->). exfalso; eapply N; eauto.
Qed.
Definition is_view (ns : bytes) : Prop := ns = [SLASH] \/ exists m, ns = SLASH :: m ++ [SLASH].
Lemma ensure_view m : is_view (lead_slash (ensureTrailingBackslash m)).
Proof.
  rewrite ensure_eq. destruct (ends_with SLASH m) eqn:E.
  - apply ends_with_true in E as (p & ->). destruct p as [|c p]; simpl; [left; auto|].
    destruct (N.eqb c SLASH) eqn:Ec; [apply N.eqb_eq in Ec; subst; right; exists p; auto|].
    right. exists (c :: p). auto.
  - destruct m as [|c m]; simpl; [left; auto|].
    destruct (N.eqb c SLASH) eqn:Ec; [apply N.eqb_eq in Ec; subst; right; exists m; auto|].
    right. exists (c :: m). auto.
Qed.

(** ** path texts *)
From Verif Require Import PTree_Spec.
Lemma seg_noslash w : segment w -> ~ In SLASH w.
Proof. intros (_ & H & _). exact H. Qed.
Lemma abs_text_snoc p w : abs_text (p ++ [w]) = abs_text p ++ SLASH :: w.
Proof. unfold abs_text. rewrite map_app, concat_app. simpl. rewrite app_nil_r. auto. Qed.
Lemma abs_text_cons w p : abs_text (w :: p) = SLASH :: w ++ abs_text p.
Proof. reflexivity. Qed.
Lemma rel_abs p : p <> [] -> abs_text p = SLASH :: rel_text p.
Proof.
  induction p as [|w p IH]; [congruence|]. intros _. destruct p as [|w' p]; [unfold abs_text; simpl; rewrite app_nil_r; auto|].
  rewrite abs_text_cons, IH by discriminate. reflexivity.
Qed.
Lemma view_abs p : view_text p = abs_text p ++ [SLASH].
Proof.
  unfold view_text. change 47%N with SLASH. induction p as [|w p IH]; auto. rewrite abs_text_cons. cbn [map concat app].
  f_equal. rewrite <- !app_assoc. f_equal. exact IH.
Qed.
Lemma abs_app p q : abs_text (p ++ q) = abs_text p ++ abs_text q.
Proof. unfold abs_text. rewrite map_app, concat_app. auto. Qed.
Lemma view_rel b k : k <> [] -> view_text b ++ rel_text k = abs_text (b ++ k).
Proof. intros H. rewrite view_abs, abs_app, (rel_abs k) by auto. rewrite <- app_assoc. auto. Qed.
Lemma rel_components p : Forall segment p -> components SLASH (rel_text p) = p.
Proof.
  induction p as [|w p IH]; intros H; auto. inversion H as [|? ? Hw Hp]; subst.
  destruct p as [|w' p]; [apply components_clean; [apply seg_noslash; auto|apply Hw]|].
  change (rel_text (w :: w' :: p)) with (w ++ SLASH :: rel_text (w' :: p)).
  rewrite components_app, IH by auto. rewrite ends_with_clean by (apply seg_noslash; auto).
  rewrite components_clean; [|apply seg_noslash; auto|apply Hw]. destruct w; [exfalso; destruct Hw; congruence|reflexivity].
Qed.
Lemma rel_ends p : Forall segment p -> ends_with SLASH (rel_text p) = false.
Proof.
  induction p as [|w p IH]; intros H; auto. inversion H as [|? ? Hw Hp]; subst.
  destruct p as [|w' p]; [apply ends_with_clean; apply seg_noslash; auto|].
  change (rel_text (w :: w' :: p)) with (w ++ (SLASH :: rel_text (w' :: p))).
  rewrite ends_with_app by discriminate. change (SLASH :: rel_text (w' :: p)) with ([SLASH] ++ rel_text (w' :: p)).
  rewrite ends_with_app; auto. destruct p; [|destruct w'; discriminate]. inversion Hp as [|? ? Hw' _]; subst.
  cbn [rel_text]. apply Hw'.
Qed.
Lemma rel_nonnil p : Forall segment p -> p <> [] -> rel_text p <> [].
Proof.
  intros H N. destruct p as [|w p]; [congruence|]. inversion H as [|? ? Hw Hp]; subst. destruct Hw as (W & _).
  destruct p; [exact W|]. destruct w; discriminate.
Qed.
Lemma rel_head p : Forall segment p -> p <> [] -> exists c r, rel_text p = c :: r /\ N.eqb c SLASH = false.
Proof.
  intros H N. destruct p as [|w p]; [congruence|]. inversion H as [|? ? Hw Hp]; subst.
  destruct w as [|c w]; [exfalso; destruct Hw; congruence|]. exists c. destruct p as [|w' p]; eexists; (split; [reflexivity|]);
    (apply N.eqb_neq; intros ->; apply (seg_noslash _ Hw); left; auto).
Qed.
Lemma rel_nonul p : Forall segment p -> c_str (rel_text p) = rel_text p.
Proof.
  intros H. assert (N : ~ In 0%N (rel_text p)).
  { induction p as [|w p IH]; simpl; auto. inversion H as [|? ? Hw Hp]; subst. destruct p as [|w' p]; [apply Hw|].
    intros X. apply in_app_or in X as [X|[X|X]]; [apply Hw in X; auto|discriminate|apply IH; auto]. }
  revert N. generalize (rel_text p). intros s. induction s as [|c s IH]; intros N; simpl; auto.
  destruct (N.eqb c 0) eqn:E; [apply N.eqb_eq in E; subst; exfalso; apply N; left; auto|].
  f_equal. apply IH. intros X. apply N. right; auto.
Qed.
Lemma qualified_strip q : (1 < length q) -> (if (1 <? length (q ++ [SLASH])) && ends_with SLASH (q ++ [SLASH])
   then firstn (length (q ++ [SLASH]) - 1) (q ++ [SLASH]) else q ++ [SLASH]) = q.
Proof.
  intros L. rewrite ends_with_snoc, N.eqb_refl, app_length. simpl length.
  replace (1 <? length q + 1) with true by (symmetry; apply Nat.ltb_lt; lia). simpl.
  rewrite Nat.add_sub, firstn_app, Nat.sub_diag, firstn_all. simpl. apply app_nil_r.
Qed.
Lemma abs_ends k : Forall segment k -> k <> [] -> ends_with SLASH (abs_text k) = false.
Proof.
  intros H N. rewrite rel_abs by auto. change (SLASH :: rel_text k) with ([SLASH] ++ rel_text k).
  rewrite ends_with_app by (apply rel_nonnil; auto). apply rel_ends; auto.
Qed.
Lemma abs_len k : Forall segment k -> k <> [] -> 1 < length (abs_text k).
Proof.
  intros H N. rewrite rel_abs by auto. pose proof (rel_nonnil k H N). simpl. destruct (rel_text k); [congruence|simpl; lia].
Qed.
Lemma denotes_qualified ns key p : denotes ns key p ->
  Forall segment p /\ p <> [] /\ buildQualifiedKeyName ns key = abs_text p.
Proof.
  intros H. destruct H as [b k tail Hs Hk Ht|b Hs Hb|ns k tail Hs Hk Ht].
  - assert (Hks : Forall segment k) by (apply Forall_app in Hs; tauto).
    assert (NN : b ++ k <> []) by (destruct b; [auto|discriminate]).
    repeat split; auto.
    unfold buildQualifiedKeyName. destruct (rel_head k Hks Hk) as (c & r & E & Ec).
    rewrite E. cbn [app]. rewrite Ec. change (c :: r ++ tail) with ((c :: r) ++ tail). rewrite <- E, app_assoc, view_rel by auto.
    destruct Ht as [->| ->].
    + rewrite app_nil_r, abs_ends by auto. rewrite andb_false_r. auto.
    + apply qualified_strip. apply abs_len; auto.
  - repeat split; auto. unfold buildQualifiedKeyName. rewrite app_nil_r, view_abs. apply qualified_strip. apply abs_len; auto.
  - repeat split; auto. unfold buildQualifiedKeyName.
    destruct (abs_text k ++ tail) as [|c r] eqn:E.
    { exfalso. pose proof (abs_len k Hs Hk). destruct (abs_text k); simpl in *; [lia|discriminate]. }
    assert (c = SLASH) as ->.
    { rewrite rel_abs in E by auto. injection E as <- _. auto. }
    rewrite N.eqb_refl, <- E. destruct Ht as [->| ->].
    + rewrite app_nil_r, abs_ends by auto. rewrite andb_false_r. auto.
    + apply qualified_strip. apply abs_len; auto.
Qed.
Lemma abs_comps p : Forall segment p -> p <> [] -> components SLASH (skipn 1 (abs_text p)) = p /\
  ends_with SLASH (skipn 1 (abs_text p)) = false.
Proof. intros H N. rewrite rel_abs by auto. simpl. split; [apply rel_components; auto|apply rel_ends; auto]. Qed.

Lemma setX_denotes {A} (pr : A -> bytes) t ns key p v : denotes ns key p -> setX pr t ns key v = Ok (put_comps t p (pr v)).
Proof.
  intros D. apply denotes_qualified in D as (H & N & Q). unfold setX, imp_set, put. rewrite Q.
  destruct (abs_comps p H N) as [-> ->]. destruct (walk t p); auto.
Qed.
Lemma getX_denotes {A} (tr : bytes -> option A) t ns key p : denotes ns key p ->
  getX tr t ns key = match value_at t p with None => InvalidKey | Some d => match tr d with Some a => Ok a | None => InvalidValue end end.
Proof.
  intros D. apply denotes_qualified in D as (H & N & Q). unfold getX, imp_get, value_at. rewrite Q.
  destruct (abs_comps p H N) as [-> _]. destruct (walk t p); auto.
Qed.
Lemma getopt_denotes {A} (tr : bytes -> option A) t ns key p : denotes ns key p ->
  get_optional tr t SLASH (skipn 1 (buildQualifiedKeyName ns key)) = match value_at t p with None => None | Some d => tr d end.
Proof.
  intros D. apply denotes_qualified in D as (H & N & Q). unfold get_optional, value_at. rewrite Q.
  destruct (abs_comps p H N) as [-> _]. destruct (walk t p); auto.
Qed.
Lemma exist_denotes t ns key p : denotes ns key p ->
  doesKeyExist t ns key = match value_at t p with None => false | Some _ => true end.
Proof.
  intros D. apply denotes_qualified in D as (H & N & Q). unfold doesKeyExist, imp_doesKeyExist, get_optional, value_at. rewrite Q.
  rewrite rel_abs by auto. rewrite N.eqb_refl, rel_nonul, rel_components by auto. destruct (walk t p); auto.
Qed.

(** ** translators *)
From Verif Require Import Timer_Model TimeString_Props.
Lemma take_digits_app s r : Forall digit s -> (match r with c :: _ => is_digit c = false | [] => True end) ->
  forall acc, take_digits acc (s ++ r) = (fold_left (fun v b => (10 * v + (Z.of_N b - 48))%Z) s acc, r).
Proof.
  intros H Hr. induction H as [|c s Hc Hs IH]; intros acc; simpl.
  - destruct r as [|c r]; auto. simpl. rewrite Hr. auto.
  - unfold digit in Hc. replace (is_digit c) with true by (symmetry; unfold is_digit; apply andb_true_iff; split; apply N.leb_le; lia).
    apply IH.
Qed.
Lemma num_get_print lo hi z : (lo <= z <= hi)%Z -> num_get lo hi (print_int z) = (Some z, []).
Proof.
  intros R. unfold print_int.
  assert (X : forall z, (0 <= z)%Z -> exists c s, dec z = c :: s /\ is_digit c = true /\ is_space c = false /\ N.eqb c 45 = false /\ N.eqb c 43 = false
                 /\ take_digits 0 (dec z) = (z, [])).
  { intros y Hy. destruct (dec_spec y Hy) as (D & V & L). destruct (dec y) as [|c s] eqn:E; [simpl in L; lia|].
    exists c, s. split; auto. assert (Dc : digit c) by (inversion D; auto). unfold digit in Dc.
    assert (is_digit c = true) by (unfold is_digit; apply andb_true_iff; split; apply N.leb_le; lia).
    repeat split; auto.
    - unfold is_space. apply orb_false_iff. split; [apply andb_false_iff; right; apply N.leb_gt; lia|apply N.eqb_neq; lia].
    - apply N.eqb_neq; lia.
    - apply N.eqb_neq; lia.
    - rewrite <- (app_nil_r (c :: s)), take_digits_app by auto. unfold value in V. rewrite V. auto. }
  destruct (Z.ltb_spec z 0).
  - destruct (X (- z)%Z) as (c & s & E & D & W & _ & _ & T); [lia|]. unfold num_get. cbn [skip_ws]. change (is_space 45%N) with false. cbn iota.
    cbn [take_sign]. rewrite N.eqb_refl. rewrite E in *. rewrite D, T. rewrite Z.opp_involutive.
    replace ((lo <=? z)%Z && (z <=? hi)%Z) with true by (symmetry; apply andb_true_iff; split; apply Z.leb_le; lia). auto.
  - destruct (X z) as (c & s & E & D & W & M & P & T); [lia|]. unfold num_get. rewrite E in *. cbn [skip_ws]. rewrite W.
    cbn [take_sign]. rewrite M, P, D, T.
    replace ((lo <=? z)%Z && (z <=? hi)%Z) with true by (symmetry; apply andb_true_iff; split; apply Z.leb_le; lia). auto.
Qed.
Lemma parse_print_int z : (- 2 ^ 31 <= z <= 2 ^ 31 - 1)%Z -> parse_int (print_int z) = Some z.
Proof. intros H. unfold parse_int. rewrite num_get_print; auto. Qed.
Lemma parse_print_bool b : parse_bool (print_bool b) = Some b.
Proof. destruct b; vm_compute; auto. Qed.
