(** C44-C49, C93: the property tree through its API.
    The tree is shared by all views; a view is its namespace text.  [getX tr], [setX pr], ... are getInt/getString/... with
    the translator of the type. *)
From Verif Require Import PTree_Model PTree_Spec PTree_Proofs PTree_Update PTree_Inline Strings_Model.
Open Scope nat_scope.

(** ** C44 *)
(** A translator pair is faithful at a value if the printed text parses back. *)
Definition faithful {A} (tr : bytes -> option A) (pr : A -> bytes) (v : A) : Prop := tr (pr v) = Some v.
Theorem translators_faithful :
  (forall s, faithful parse_string print_string s) /\
  (forall z, (- 2 ^ 31 <= z < 2 ^ 31)%Z -> faithful parse_int print_int z) /\
  (forall b, faithful parse_bool print_bool b).
Proof.
  split; [|split]; intros v; [reflexivity| |apply parse_print_bool]. intros H. apply parse_print_int. lia.
Qed.
Theorem set_then_get : forall A (tr : bytes -> option A) pr v t ns key p, faithful tr pr v -> denotes ns key p ->
  exists t', setX pr t ns key v = Ok t' /\
    forall ns' key', denotes ns' key' p -> getX tr t' ns' key' = Ok v /\ doesKeyExist t' ns' key' = true.
Proof.
  intros A tr pr v t ns key p F D. exists (put_comps t p (pr v)). split; [apply setX_denotes; auto|].
  intros ns' key' D'. rewrite (getX_denotes tr _ _ _ _ D'), (exist_denotes _ _ _ _ D'), put_same. rewrite F. auto.
Qed.
Print Assumptions set_then_get.
(** Outside of these keys: "a//" names no component after a separator, and boost asserts. *)
Theorem set_double_slash_refuted : setX print_string pempty (view_root []) (str "a//") (str "v") = Undefined.
Proof. reflexivity. Qed.

(** ** C45 *)
Theorem set_frame : forall A (pr : A -> bytes) v t ns key p t', denotes ns key p -> setX pr t ns key v = Ok t' ->
  forall ns' key' q, denotes ns' key' q -> q <> p ->
    (doesKeyExist t ns' key' = true ->
       doesKeyExist t' ns' key' = true /\ forall B (tr : bytes -> option B), getX tr t' ns' key' = getX tr t ns' key') /\
    (doesKeyExist t ns' key' = false -> ancestor q p -> getX parse_string t' ns' key' = Ok []) /\
    (doesKeyExist t ns' key' = false -> ~ ancestor q p -> doesKeyExist t' ns' key' = false).
Proof.
  intros A pr v t ns key p t' D E ns' key' q D' Hq. rewrite (setX_denotes pr t ns key p v D) in E. injection E as <-.
  rewrite !(exist_denotes _ _ _ _ D').
  assert (V : value_at (put_comps t p (pr v)) q = match value_at t q with Some x => Some x | None => if pre q p then Some [] else None end).
  { rewrite put_value_at. destruct (path_eq_dec q p); [congruence|auto]. }
  rewrite V. split; [|split].
  - destruct (value_at t q) eqn:X; [|discriminate]. intros _. split; auto. intros B tr.
    rewrite !(getX_denotes tr _ _ _ _ D'), V, X. auto.
  - destruct (value_at t q) eqn:X; [discriminate|]. intros _ An. apply pre_spec in An. rewrite An in *.
    rewrite (getX_denotes parse_string _ _ _ _ D'), V. auto.
  - destruct (value_at t q) eqn:X; [discriminate|]. intros _ An. destruct (pre q p) eqn:P; auto. exfalso. apply An, pre_spec. auto.
Qed.
Print Assumptions set_frame.

(** The names of the children at a path. *)
Definition child_names (t : ptree) (q : list bytes) : option (list bytes) :=
  match walk t q with Some n => Some (map fst (pkids n)) | None => None end.
Fixpoint below (q p : list bytes) : option (list bytes) :=
  match q, p with
  | [], _ => Some p
  | a :: q', b :: p' => if bytes_eqb a b then below q' p' else None
  | _ :: _, [] => None
  end.
Lemma below_spec q p r : below q p = Some r <-> p = q ++ r.
Proof.
  revert p. induction q as [|a q IH]; intros p; cbn [below app]; [split; intros X; congruence|].
  destruct p as [|b p]; [split; discriminate|]. destruct (bytes_eqb a b) eqn:E.
  - apply bytes_eqb_eq in E. subst b. rewrite IH. split; intros X; congruence.
  - split; [discriminate|]. intros X. injection X as -> _. rewrite bytes_eqb_refl in E. discriminate.
Qed.
Lemma set_kid_names ks k f : map fst (set_kid ks k f) = if find_kid ks k then map fst ks else map fst ks ++ [k].
Proof.
  induction ks as [|[k' c] ks IH]; cbn [set_kid find_kid map fst app]; auto. destruct (bytes_eqb k' k); cbn [map fst]; auto.
  rewrite IH. destruct (find_kid ks k); auto.
Qed.
Lemma find_kid_names ks k : (exists c, find_kid ks k = Some c) <-> In k (map fst ks).
Proof.
  induction ks as [|[k' c] ks IH]; cbn [find_kid map fst In]; [split; [intros (x & X); discriminate|intros []]|].
  destruct (bytes_eqb k' k) eqn:E.
  - apply bytes_eqb_eq in E. split; eauto.
  - rewrite IH. split; auto. intros [X|X]; auto. subst. rewrite bytes_eqb_refl in E. discriminate.
Qed.
Lemma put_names q : forall p t v, child_names (put_comps t p v) q =
  match below q p with
  | Some (k :: _) => Some (match child_names t q with Some l => if in_dec bytes_eq_dec k l then l else l ++ [k] | None => [k] end)
  | Some [] => Some (match child_names t q with Some l => l | None => [] end)
  | None => child_names t q
  end.
Proof.
  induction q as [|h q IH]; intros p t v.
  - unfold child_names. cbn [below walk]. destruct p as [|k p]; cbn [put_comps pkids]; auto. rewrite set_kid_names.
    pose proof (find_kid_names (pkids t) k) as F. destruct (find_kid (pkids t) k) as [c|]; destruct (in_dec bytes_eq_dec k (map fst (pkids t))) as [I|I]; auto; exfalso.
    + apply I, F. eauto.
    + apply F in I as (c & X). discriminate.
  - destruct p as [|k p]; cbn [below]; [reflexivity|]. unfold child_names in *. cbn [put_comps walk pkids].
    destruct (bytes_eqb h k) eqn:E.
    + apply bytes_eqb_eq in E. subst h. rewrite find_set_kid_same. destruct (find_kid (pkids t) k) as [c|] eqn:F; [apply IH|].
      rewrite IH. rewrite walk_pempty. destruct q as [|h q]; cbn [below]; [|destruct (below (h :: q) p) as [[|x l]|]; auto].
      destruct p as [|x p]; auto.
    + rewrite find_set_kid_other; auto. intros ->. rewrite bytes_eqb_refl in E. discriminate.
Qed.
(** Setting a key adds at most one child, at the end, to an existing node, and single children below it; no duplicates. *)
Theorem set_children : forall A (pr : A -> bytes) v t ns key p t', denotes ns key p -> setX pr t ns key v = Ok t' ->
  forall q,
    (forall l, child_names t q = Some l ->
       child_names t' q = Some l \/
       exists k r, p = q ++ k :: r /\ ~ In k l /\ child_names t' q = Some (l ++ [k])) /\
    (child_names t q = None -> forall l, child_names t' q = Some l ->
       (q = p /\ l = []) \/ exists k r, p = q ++ k :: r /\ l = [k]).
Proof.
  intros A pr v t ns key p t' D E q. rewrite (setX_denotes pr t ns key p v D) in E. injection E as <-. rewrite put_names. split.
  - intros l ->. destruct (below q p) as [[|k r]|] eqn:B; auto. apply below_spec in B. destruct (in_dec bytes_eq_dec k l); auto. right. exists k, r. auto.
  - intros -> l. destruct (below q p) as [[|k r]|] eqn:B; [| |discriminate]; apply below_spec in B; intros X; injection X as <-.
    + left. rewrite app_nil_r in B. auto.
    + right. exists k, r. auto.
Qed.
Print Assumptions set_children.

(** ** C46 *)
Lemma view_child_rel b c tail : Forall segment c -> c <> [] -> (tail = [] \/ tail = [47%N]) ->
  view_child (view_text b) (rel_text c ++ tail) = view_text (b ++ c).
Proof.
  intros H N T. destruct (rel_head c H N) as (x & r & E & Ex). unfold view_child. rewrite E. cbn [app]. rewrite Ex.
  change (x :: r ++ tail) with ((x :: r) ++ tail). rewrite <- E, app_assoc, view_rel by auto.
  rewrite ensure_eq, view_abs. destruct T as [->| ->].
  - rewrite app_nil_r. assert (EA : ends_with SLASH (abs_text (b ++ c)) = false).
    { rewrite abs_app, (rel_abs c) by auto. change (SLASH :: rel_text c) with ([SLASH] ++ rel_text c). rewrite app_assoc, ends_with_app by (apply rel_nonnil; auto).
      apply rel_ends; auto. }
    rewrite EA. destruct b; [rewrite (rel_abs ([] ++ c)) by auto|]; reflexivity.
  - rewrite ends_with_snoc, N.eqb_refl. destruct b; [rewrite (rel_abs ([] ++ c)) by auto|]; reflexivity.
Qed.
Lemma view_child_abs ns c tail : Forall segment c -> c <> [] -> (tail = [] \/ tail = [47%N]) ->
  view_child ns (abs_text c ++ tail) = view_text c.
Proof.
  intros H N T. unfold view_child. rewrite view_abs. pose proof (rel_abs c N) as E. rewrite E at 1. cbn [app].
  change (N.eqb SLASH SLASH) with true. cbn iota.
  destruct T as [->| ->].
  - rewrite app_nil_r, ensure_eq. rewrite abs_ends by auto. rewrite E. reflexivity.
  - rewrite ensure_eq, ends_with_snoc, N.eqb_refl, E. reflexivity.
Qed.
Lemma view_root_rel c tail : Forall segment c -> c <> [] -> (tail = [] \/ tail = [47%N]) -> view_root (rel_text c ++ tail) = view_text c.
Proof.
  intros H N T. destruct (rel_head c H N) as (x & r & E & Ex). unfold view_root. rewrite ensure_eq, view_abs, (rel_abs c) by auto.
  destruct T as [->| ->].
  - rewrite app_nil_r, rel_ends by auto. rewrite E. cbn [app lead_slash]. rewrite Ex. reflexivity.
  - rewrite ends_with_snoc, N.eqb_refl, E. cbn [app lead_slash]. rewrite Ex. reflexivity.
Qed.
(** Opening views. *)
Theorem views_open : forall ns b c tail, Forall segment c -> c <> [] -> (tail = [] \/ tail = [47%N]) ->
  view_root [] = view_text [] /\
  view_root (rel_text c ++ tail) = view_text c /\
  view_child (view_text b) (rel_text c ++ tail) = view_text (b ++ c) /\
  view_child ns (abs_text c ++ tail) = view_text c.
Proof.
  intros ns b c tail H N T. split; [reflexivity|]. split; [apply view_root_rel; auto|]. split; [apply view_child_rel; auto|apply view_child_abs; auto].
Qed.
(** Reading through a child view. *)
Theorem views_read : forall A (tr : bytes -> option A) t b c k tail, Forall segment (b ++ c ++ k) -> c <> [] -> k <> [] -> (tail = [] \/ tail = [47%N]) ->
  getX tr t (view_child (view_text b) (rel_text c)) (rel_text k ++ tail) = getX tr t (view_text b) (rel_text (c ++ k)) /\
  getX tr t (view_child (view_text b) (rel_text c)) [] = getX tr t (view_text b) (rel_text c) /\
  (forall ns1 ns2, getX tr t ns1 (abs_text k) = getX tr t ns2 (abs_text k)).
Proof.
  intros A tr t b c k tail H Nc Nk T. assert (Hc : Forall segment c) by (rewrite !Forall_app in H; tauto).
  assert (Hk : Forall segment k) by (rewrite !Forall_app in H; tauto). assert (Hb : Forall segment b) by (rewrite !Forall_app in H; tauto).
  pose proof (view_child_rel b c [] Hc Nc (or_introl eq_refl)) as E. rewrite app_nil_r in E. rewrite E. split; [|split].
  - rewrite (getX_denotes tr t _ _ ((b ++ c) ++ k)); [|apply den_rel; auto; rewrite <- app_assoc; auto].
    rewrite (getX_denotes tr t _ _ (b ++ (c ++ k))).
    + rewrite <- app_assoc. auto.
    + rewrite <- (app_nil_r (rel_text (c ++ k))). apply den_rel; auto. destruct c; [congruence|discriminate].
  - rewrite (getX_denotes tr t _ _ (b ++ c)); [|apply den_self; [apply Forall_app; auto|destruct b; [auto|discriminate]]].
    rewrite (getX_denotes tr t _ _ (b ++ c)); auto. rewrite <- (app_nil_r (rel_text c)). apply den_rel; auto. apply Forall_app; auto.
  - intros ns1 ns2. rewrite !(getX_denotes tr t _ _ k); auto; rewrite <- (app_nil_r (abs_text k)); apply den_abs; auto.
Qed.
(** For arbitrary namespace texts: opening a, then b, is opening a/b. *)
Theorem views_compose : forall ns a b, is_view ns -> a <> [] -> ends_with SLASH a = false -> (forall r, b <> SLASH :: r) ->
  view_child (view_child ns a) b = view_child ns (a ++ str "/" ++ b) /\ is_view (view_child ns a).
Proof.
  intros ns a b V Na Ea Hb. change (str "/") with [SLASH]. split.
  2:{ unfold view_child. destruct a as [|c a]; [congruence|]. destruct (N.eqb c SLASH); apply ensure_view. }
  assert (X : forall m, ends_with SLASH m = false -> ends_with SLASH (m ++ [SLASH] ++ b) = ends_with SLASH ([SLASH] ++ b)).
  { intros m _. apply ends_with_app. discriminate. }
  assert (W : view_child ns a = lead_slash ((match a with c :: _ => if N.eqb c SLASH then a else ns ++ a | [] => [] end) ++ [SLASH])).
  { unfold view_child. destruct a as [|c a]; [congruence|]. destruct (N.eqb c SLASH) eqn:Ec; rewrite ensure_eq.
    - rewrite Ea. auto.
    - rewrite ends_with_app, Ea by discriminate. auto. }
  set (B := match a with c :: _ => if N.eqb c SLASH then a else ns ++ a | [] => [] end) in *.
  assert (HB : exists r, B = SLASH :: r).
  { subst B. destruct a as [|c a]; [congruence|]. destruct (N.eqb c SLASH) eqn:Ec; [apply N.eqb_eq in Ec; subst; eauto|].
    destruct V as [->|(m & ->)]; cbn [app]; eauto. }
  destruct HB as (r & HB). rewrite W, HB. cbn [app lead_slash]. rewrite N.eqb_refl.
  assert (R : view_child ns (a ++ [SLASH] ++ b) = lead_slash (ensureTrailingBackslash (B ++ [SLASH] ++ b))).
  { unfold view_child. destruct a as [|c a]; [congruence|]. cbn [app]. subst B. destruct (N.eqb c SLASH); auto.
    change (c :: a ++ SLASH :: b) with ((c :: a) ++ [SLASH] ++ b). rewrite app_assoc. auto. }
  change (a ++ SLASH :: b) with (a ++ [SLASH] ++ b). rewrite R, HB.
  unfold view_child. destruct b as [|c b].
  - rewrite !app_nil_r. auto.
  - destruct (N.eqb c SLASH) eqn:Ec; [apply N.eqb_eq in Ec; subst; exfalso; eapply Hb; eauto|].
    cbn [app]. rewrite <- app_assoc. auto.
Qed.
Print Assumptions views_compose.

(** ** C47 *)
Theorem default_reads : forall A (tr : bytes -> option A) pr t ns key p def, denotes ns key p ->
  (forall v, getX tr t ns key = Ok v -> getX_default tr t ns key def = v /\ getX_or_set tr pr t ns key def = Ok (t, v)) /\
  ((forall v, getX tr t ns key <> Ok v) -> getX_default tr t ns key def = def /\
     exists t', getX_or_set tr pr t ns key def = Ok (t', def) /\ setX pr t ns key def = Ok t' /\
       (faithful tr pr def -> getX tr t' ns key = Ok def /\ getX_or_set tr pr t' ns key def = Ok (t', def))).
Proof.
  intros A tr pr t ns key p def D. rewrite (getX_denotes tr _ _ _ _ D).
  unfold getX_default, getX_or_set, imp_get_default, imp_get_or_set. rewrite (getopt_denotes tr _ _ _ _ D). split.
  - intros v. destruct (value_at t p) as [d|]; [|discriminate]. destruct (tr d); [|discriminate]. intros X. injection X as ->. auto.
  - intros H. assert (E : match value_at t p with None => None | Some d => tr d end = None).
    { destruct (value_at t p) as [d|]; auto. destruct (tr d) as [a|]; auto. exfalso. apply (H a). auto. }
    rewrite E. split; auto. exists (put_comps t p (pr def)). pose proof (setX_denotes pr t ns key p def D) as S. unfold setX in S. rewrite S.
    split; auto. split; auto. intros F. rewrite (getX_denotes tr _ _ _ _ D), put_same, (getopt_denotes tr _ _ _ _ D), put_same.
    unfold faithful in F. rewrite F. auto.
Qed.
Print Assumptions default_reads.

(** ** C48 *)
(** Trees whose keys are path components without '.', different among siblings. *)
Fixpoint simple (t : ptree) : Prop :=
  match t with
  | Node d ks => NoDup (map fst ks) /\
      (fix all l : Prop := match l with [] => True | (k, c) :: r => (segment k /\ ~ In 46%N k) /\ simple c /\ all r end) ks
  end.
Lemma simple_inv d ks : simple (Node d ks) -> NoDup (map fst ks) /\ Forall (fun kc => (segment (fst kc) /\ ~ In 46%N (fst kc)) /\ simple (snd kc)) ks.
Proof. simpl. intros [N A]. split; auto. clear N. induction ks as [|[k c] r IH]; constructor; simpl in *; try tauto. Qed.
Lemma simple_addressable t : simple t -> addressable t.
Proof.
  induction t as [d ks IH] using ptree_ind'. intros S. apply simple_inv in S as [N S]. split; auto. clear N.
  induction ks as [|[k c] r IHr]; auto. inversion IH; subst. inversion S as [|? ? [[K1 K3] S1] S2]; subst.
  cbn [fst snd] in *. split; [split; [apply K1|exact K3]|split; [auto|apply IHr; auto]].
Qed.
Lemma simple_segments t : simple t -> forall p d, value_at t p = Some d -> Forall segment p.
Proof.
  induction t as [d0 ks IH] using ptree_ind'. intros S p d V. apply simple_inv in S as [N S]. destruct p as [|k p]; constructor.
  - unfold value_at in V. cbn [walk pkids] in V. destruct (find_kid ks k) as [c|] eqn:F; [|discriminate].
    apply (find_kid_in ks k c N) in F. rewrite Forall_forall in S. apply (S _ F).
  - unfold value_at in V. cbn [walk pkids] in V. destruct (find_kid ks k) as [c|] eqn:F; [|discriminate].
    apply (find_kid_in ks k c N) in F. rewrite Forall_forall in S, IH. apply (IH _ F (proj2 (S _ F)) p d). auto.
Qed.
Lemma update_eq dest other create ign : simple other -> update dest other create ign = update_all create ign dest (texts (entries [] other)).
Proof.
  intros S. unfold update. apply simple_addressable in S.
  pose proof (traverse_entries other [] S (Forall_nil _)) as T. cbn [dot_text] in T. rewrite T. auto.
Qed.
Lemma entries_value other p d : simple other -> (In (p, d) (entries [] other) <-> value_at other p = Some d).
Proof.
  intros S. apply simple_addressable in S. rewrite (in_entries other [] p d S). split; [intros (r & -> & V); auto|intros V; exists p; auto].
Qed.

(** update(other): the keys of [other] win, all others are kept. *)
Theorem update_merge_partial : forall dest other, simple other ->
  exists t', update dest other true false = (t', Ok tt) /\
    forall ns key p, denotes ns key p ->
      getX parse_string t' ns key = match getX parse_string other ns key with Ok d => Ok d | _ => getX parse_string dest ns key end.
Proof.
  intros dest other S. rewrite update_eq by auto. pose proof (simple_addressable _ S) as A.
  destruct (merge_all false (entries [] other) dest (entries_ok _ _ A (Forall_nil _)) (entries_nodup _ _ A)) as (t' & U & V1 & V2 & V3).
  exists t'. split; auto. intros ns key p D. rewrite !(getX_denotes parse_string _ _ _ _ D).
  destruct (value_at other p) as [d|] eqn:VO; cbn [parse_string].
  - apply entries_value in VO; auto. rewrite (V1 p d VO eq_refl). auto.
  - assert (NI : forall d, In (p, d) (entries [] other) -> ~ active false (p, d)).
    { intros d Hd. apply entries_value in Hd; auto. congruence. }
    destruct (value_at dest p) as [x|] eqn:VD; [rewrite (V2 p x VD NI); auto|].
    destruct (V3 p VD NI) as [_ X]. rewrite X; auto. intros [q d] He _ (r & Hr & E). cbn [fst] in E. subst q. apply entries_value in He; auto.
    apply walk_value in VO. unfold value_at in He. rewrite walk_app, VO in He. discriminate.
Qed.
Print Assumptions update_merge_partial.
(** ... with ignoreEmptyUpdates: blank values never change the target. *)
Definition blank_text (d : bytes) : Prop := Forall (fun c => In c [32; 10; 9; 13]%N) d.
Lemma blank_spec d : blank d = true <-> blank_text d.
Proof.
  unfold blank, blank_text. rewrite forallb_forall, Forall_forall. split; intros H c Hc; specialize (H c Hc).
  - rewrite !orb_true_iff, !N.eqb_eq in H. cbn. intuition.
  - rewrite !orb_true_iff, !N.eqb_eq. cbn in H. intuition.
Qed.
Theorem update_ignore_empty_partial : forall dest other, simple other ->
  exists t', update dest other true true = (t', Ok tt) /\
    forall ns key p, denotes ns key p ->
      (forall d, getX parse_string other ns key = Ok d -> ~ blank_text d -> getX parse_string t' ns key = Ok d) /\
      ((forall d, getX parse_string other ns key = Ok d -> blank_text d) -> doesKeyExist dest ns key = true ->
         getX parse_string t' ns key = getX parse_string dest ns key) /\
      ((forall d, getX parse_string other ns key = Ok d -> blank_text d) -> doesKeyExist dest ns key = false ->
         doesKeyExist t' ns key = true -> getX parse_string t' ns key = Ok [] /\
           exists key' q d, ancestor p q /\ denotes ns key' q /\ getX parse_string other ns key' = Ok d /\ ~ blank_text d).
Proof.
  intros dest other S. rewrite update_eq by auto. pose proof (simple_addressable _ S) as A.
  destruct (merge_all true (entries [] other) dest (entries_ok _ _ A (Forall_nil _)) (entries_nodup _ _ A)) as (t' & U & V1 & V2 & V3).
  exists t'. split; auto. intros ns key p D. rewrite !(getX_denotes parse_string _ _ _ _ D), !(exist_denotes _ _ _ _ D).
  assert (NI : (forall d, match value_at other p with Some d => Ok d | None => InvalidKey end = Ok d -> blank_text d) -> forall d, In (p, d) (entries [] other) -> ~ active true (p, d)).
  { intros H d Hd. apply entries_value in Hd; auto. rewrite Hd in H. specialize (H d eq_refl). apply blank_spec in H. unfold active. cbn [snd andb]. rewrite H. discriminate. }
  cbn [parse_string] in *. split; [|split].
  - intros d H NB. destruct (value_at other p) as [x|] eqn:VO; [|discriminate]. injection H as ->. apply entries_value in VO; auto.
    rewrite (V1 p d VO); auto. unfold active. cbn [snd andb]. destruct (blank d) eqn:B; auto. apply blank_spec in B. tauto.
  - intros H E. destruct (value_at dest p) as [x|] eqn:VD; [|discriminate]. rewrite (V2 p x VD (NI H)). auto.
  - intros H E E'. destruct (value_at dest p) eqn:VD; [discriminate|]. destruct (V3 p VD (NI H)) as [Y N].
    assert (X : (exists e, In e (entries [] other) /\ active true e /\ is_prefix p (fst e)) \/
                (forall e, In e (entries [] other) -> active true e -> ~ is_prefix p (fst e))).
    { clear. induction (entries [] other) as [|e l IH]; [right; intros e []|].
      destruct IH as [(e' & I & X)|N]; [left; exists e'; split; [right; auto|auto]|].
      destruct (true && blank (snd e)) eqn:B.
      - right. intros e' [<-|I] Ac; [unfold active in Ac; congruence|auto].
      - destruct (pre p (fst e)) eqn:P; [left; exists e; split; [left; auto|split; [auto|apply pre_spec; auto]]|].
        right. intros e' [<-|I] Ac; auto. intros X. apply pre_spec in X. congruence. }
    destruct X as [X|X]; [|rewrite (N X) in E'; discriminate]. rewrite (Y X). split; auto.
    destruct X as ([q d] & He & Ac & Pr). cbn [fst] in Pr. apply entries_value in He; auto.
    pose proof (simple_segments other S q d He) as Sq. assert (q <> []) by (destruct Pr as (r & Hr & ->); destruct p, r; try congruence; discriminate).
    assert (Dq : denotes ns (abs_text q) q) by (rewrite <- (app_nil_r (abs_text q)); apply den_abs; auto).
    exists (abs_text q), q, d. split; auto. split; auto. rewrite (getX_denotes parse_string _ _ _ _ Dq), He. split; auto.
    intros B. apply blank_spec in B. unfold active in Ac. cbn [snd andb] in Ac. rewrite B in Ac. discriminate.
Qed.
Print Assumptions update_ignore_empty_partial.
(** updateOnly: throws iff some key of [other] is missing in the target; never creates a key; a value is the old one or
    the one in [other]. *)
Theorem update_only_partial : forall dest other ign t' r, simple other -> update dest other false ign = (t', r) ->
  (forall ns key p, denotes ns key p -> doesKeyExist t' ns key = doesKeyExist dest ns key /\
     (getX parse_string t' ns key = getX parse_string dest ns key \/
      getX parse_string t' ns key = getX parse_string other ns key)) /\
  let must := fun ns key => exists d, getX parse_string other ns key = Ok d /\ (ign = true -> ~ blank_text d) in
  ((forall ns key p, denotes ns key p -> must ns key -> doesKeyExist dest ns key = true) ->
     r = Ok tt /\ forall ns key p, denotes ns key p -> must ns key -> getX parse_string t' ns key = getX parse_string other ns key) /\
  ((exists ns key p, denotes ns key p /\ must ns key /\ doesKeyExist dest ns key = false) -> r = KeyNotFound).
Proof.
  intros dest other ign t' r S U. rewrite update_eq in U by auto. pose proof (simple_addressable _ S) as A.
  destruct (update_only_all ign (entries [] other) dest (entries_ok _ _ A (Forall_nil _)) (entries_nodup _ _ A) t' r U) as (V1 & V2 & V3 & V4).
  assert (AC : forall p d, active ign (p, d) <-> (ign = true -> ~ blank_text d)).
  { intros p d. unfold active. cbn [snd]. destruct ign; cbn [andb].
    - split; [intros B _ X; apply blank_spec in X; congruence|]. intros H. destruct (blank d) eqn:B; auto. apply blank_spec in B. exfalso. apply H; auto.
    - split; auto. intros _ X. discriminate. }
  split; [|split].
  - intros ns key p D. rewrite !(exist_denotes _ _ _ _ D), !(getX_denotes parse_string _ _ _ _ D). cbn [parse_string]. split.
    + specialize (V1 p). destruct (value_at t' p), (value_at dest p); auto; exfalso; [destruct V1 as [_ V1]|destruct V1 as [V1 _]]; specialize (V1 eq_refl); discriminate.
    + destruct (V2 p) as [->|(d & I & _ & ->)]; auto. apply entries_value in I; auto. rewrite I. auto.
  - intros H. destruct V3 as [R V].
    + intros [p d] I Ac. cbn [fst]. destruct p as [|k p]; [cbn; discriminate|].
      apply entries_value in I; auto. pose proof (simple_segments other S _ _ I) as Sp.
      assert (D : denotes [] (abs_text (k :: p)) (k :: p)) by (rewrite <- (app_nil_r (abs_text _)); apply den_abs; auto; discriminate).
      specialize (H _ _ _ D). rewrite (exist_denotes _ _ _ _ D) in H.
      assert (M : exists d0, getX parse_string other [] (abs_text (k :: p)) = Ok d0 /\ (ign = true -> ~ blank_text d0)).
      { exists d. rewrite (getX_denotes parse_string _ _ _ _ D), I. split; auto. apply AC with (p := k :: p). auto. }
      specialize (H M). intros X. rewrite X in H. discriminate.
    + split; auto. intros ns key p D (d & G & B). rewrite !(getX_denotes parse_string _ _ _ _ D) in *. cbn [parse_string] in *.
      destruct (value_at other p) as [x|] eqn:VO; [|discriminate]. injection G as ->. rewrite (V p d); auto; [apply entries_value; auto|apply AC; auto].
  - intros (ns & key & p & D & (d & G & B) & E). apply V4. rewrite (getX_denotes parse_string _ _ _ _ D) in G. rewrite (exist_denotes _ _ _ _ D) in E.
    destruct (value_at other p) as [x|] eqn:VO; [|discriminate]. injection G as ->. exists (p, d). split; [apply entries_value; auto|]. split; [apply AC; auto|].
    cbn [fst]. destruct (value_at dest p); [discriminate|auto].
Qed.
Print Assumptions update_only_partial.
(** Without the restrictions on [other]: a key with a '.' is split, ... *)
Theorem update_dotted_refuted : exists other key, 
  (let t' := fst (update pempty other true false) in
   getX parse_string other (view_root []) key = Ok (str "1") /\
   getX parse_string t' (view_root []) key = InvalidKey /\ getX parse_string t' (view_root []) (str "a/b") = Ok (str "1")).
Proof. exists (Node [] [(str "a.b", Node (str "1") [])]), (str "a.b"). vm_compute. auto. Qed.
(** ... and the elements of a JSON array (empty keys) overwrite the value of the array node. *)
Theorem update_array_refuted : exists other,
  getX parse_string other (view_root []) (str "list") = Ok [] /\
  getX parse_string (fst (update pempty other true false)) (view_root []) (str "list") = Ok (str "2") /\
  getChildren 0%N (fst (update pempty other true false)) (view_text [str "list"]) = Ok [].
Proof. exists (Node [] [(str "list", Node [] [([], Node (str "1") []); ([], Node (str "2") [])])]). vm_compute. auto. Qed.
(** updateOnly is not atomic: keys before the missing one are already changed. *)
Theorem update_only_not_atomic_refuted : exists dest other,
  snd (update dest other false false) = KeyNotFound /\
  getX parse_string (fst (update dest other false false)) (view_root []) (str "a") <> getX parse_string dest (view_root []) (str "a").
Proof.
  exists (Node [] [(str "a", Node (str "0") [])]), (Node [] [(str "a", Node (str "1") []); (str "b", Node (str "2") [])]).
  vm_compute. split; [auto|discriminate].
Qed.

(** ** C49 *)
Theorem loadString_parses_partial : forall t l, Forall good l -> loadString t (render_all l) = (tree_of l, Ok tt).
Proof. exact loadString_items. Qed.
Print Assumptions loadString_parses_partial.
Theorem loadString_rejects : forall t s t' r, loadString t s = (t', r) ->
  (r = Ok tt -> ~ In 34%N s /\ (forall a b, s = a ++ b -> count 125 a <= count 123 a) /\ count 125 s = count 123 s) /\
  (r <> Ok tt -> r = ParseError /\ t' = t).
Proof.
  intros t s t' r E. split.
  - intros ->. exact (loadString_balanced t s t' E).
  - intros H. unfold loadString in E. destruct (existsb _ s); [injection E as <- <-; auto|].
    destruct (inline_to_info s 0 []) as [o|]; [|injection E as <- <-; auto].
    destruct (read_info o); injection E as <- <-; [congruence|auto].
Qed.
Print Assumptions loadString_rejects.
(** Two items below the same node: the second is stored but cannot be read. *)
Theorem loadString_shared_prefix_refuted :
  exists t', loadString pempty (str "a/b=1,a/c=2") = (t', Ok tt) /\
    getX parse_string t' (view_root []) (str "a/b") = Ok (str "1") /\
    getX parse_string t' (view_root []) (str "a/c") = InvalidKey.
Proof. eexists. split; [vm_compute; reflexivity|]. vm_compute. auto. Qed.
(** A value with a blank is cut, the rest becomes a key; a value with '/' opens a block. *)
Theorem loadString_value_refuted :
  (exists t', loadString pempty (str "a=x y") = (t', Ok tt) /\ getX parse_string t' (view_root []) (str "a") = Ok (str "x")
     /\ doesKeyExist t' (view_root []) (str "y") = true) /\
  (exists t', loadString pempty (str "f=/tmp") = (t', Ok tt) /\ getX parse_string t' (view_root []) (str "f") = Ok []
     /\ doesKeyExist t' (view_root []) (str "f/tmp") = true).
Proof. split; eexists; (split; [vm_compute; reflexivity|]); vm_compute; auto. Qed.
(** With different names among siblings every written key is readable. *)
Definition first_key (i : item) : bytes := match i with Plain (w :: _) _ | Block (w :: _) _ _ => w | _ => [] end.
Lemma chain_walk p leaf : p <> [] -> forall q d, value_at leaf q = Some d -> value_at (Node [] (chain p leaf)) (p ++ q) = Some d.
Proof.
  induction p as [|w p IH]; [congruence|]. intros _ q d V. destruct p as [|w' p].
  - unfold value_at. cbn [chain app walk pkids find_kid]. rewrite bytes_eqb_refl. exact V.
  - change (chain (w :: w' :: p) leaf) with [(w, Node [] (chain (w' :: p) leaf))]. unfold value_at in *. cbn [app walk pkids find_kid].
    rewrite bytes_eqb_refl. apply (IH ltac:(discriminate) q d V).
Qed.
Lemma kids_first i : good i -> exists c, kids_of i = [(first_key i, c)].
Proof.
  intros G. destruct i as [p v|p v l]; cbn [kids_of first_key].
  - destruct G as (N & _). destruct p as [|w [|w' p]]; [congruence| |]; cbn [chain]; eauto.
  - apply good_block in G as [(N & _) _]. destruct p as [|w [|w' p]]; [congruence| |]; cbn [chain]; eauto.
Qed.
(** [readable i p v]: the item writes value v at path p. *)
Inductive writes : list item -> list bytes -> bytes -> Prop :=
| w_plain l p v : In (Plain p (Some v)) l -> writes l p v
| w_head l p v b : In (Block p (Some v) b) l -> writes l p v
| w_block l p v b q x : In (Block p v b) l -> writes b q x -> writes l (p ++ q) x.
Inductive distinct_names : list item -> Prop :=
| dn l : NoDup (map first_key l) -> (forall p v b, In (Block p v b) l -> distinct_names b) -> distinct_names l.
Lemma concat_kids l i c k : Forall good l -> NoDup (map first_key l) -> In i l -> kids_of i = [(k, c)] -> find_kid (concat (map kids_of l)) k = Some c.
Proof.
  intros G N I E. induction l as [|j l IH]; [destruct I|]. inversion G as [|? ? G1 G2]; subst. inversion N as [|? ? N1 N2]; subst.
  destruct (kids_first j G1) as (cj & Ej). cbn [map concat]. rewrite Ej. cbn [app find_kid].
  destruct I as [->|I].
  - rewrite Ej in E. injection E as -> ->. rewrite bytes_eqb_refl. auto.
  - rewrite bytes_eqb_neq; [auto|]. intros X. apply N1.
    assert (Gi : good i) by (rewrite Forall_forall in G2; auto). destruct (kids_first i Gi) as (ci & Ei). rewrite Ei in E. injection E as <- _.
    rewrite X. apply in_map. auto.
Qed.
Lemma value_concat l i p d : Forall good l -> NoDup (map first_key l) -> In i l -> p <> [] ->
  value_at (Node [] (kids_of i)) p = Some d -> value_at (tree_of l) p = Some d.
Proof.
  intros G N I NP V. destruct p as [|k p]; [congruence|]. assert (Gi : good i) by (rewrite Forall_forall in G; auto).
  destruct (kids_first i Gi) as (c & E). unfold value_at, tree_of in *. cbn [walk pkids] in *. rewrite E in V. cbn [find_kid] in V.
  destruct (bytes_eqb (first_key i) k) eqn:B; [|discriminate]. apply bytes_eqb_eq in B. subst k.
  rewrite (concat_kids l i c (first_key i)); auto.
Qed.
Theorem loadString_keys_partial : forall t l, Forall good l -> distinct_names l ->
  exists t', loadString t (render_all l) = (t', Ok tt) /\
    forall p v, writes l p v -> Forall segment p -> forall ns key, denotes ns key p -> getX parse_string t' ns key = Ok v.
Proof.
  intros t l G DN. exists (tree_of l). split; [apply loadString_items; auto|].
  intros p v W _ ns key D. rewrite (getX_denotes parse_string _ _ _ _ D). cut (value_at (tree_of l) p = Some v); [intros ->; auto|].
  clear D ns key t. induction W as [l p v I|l p v b I|l p v b q x I W IH]; destruct DN as [l ND DB].
  - assert (Gi : good (Plain p (Some v))) by (rewrite Forall_forall in G; auto). destruct Gi as (N & _).
    apply (value_concat l (Plain p (Some v))); auto. cbn [kids_of]. rewrite <- (app_nil_r p) at 2. apply chain_walk; auto.
  - assert (Gi : good (Block p (Some v) b)) by (rewrite Forall_forall in G; auto). apply good_block in Gi as [(N & _) _].
    apply (value_concat l (Block p (Some v) b)); auto. cbn [kids_of]. rewrite <- (app_nil_r p) at 2. apply chain_walk; auto.
  - assert (Gi : good (Block p v b)) by (rewrite Forall_forall in G; auto). apply good_block in Gi as [(N & _) Gb].
    apply (value_concat l (Block p v b)); auto; [destruct p; [congruence|discriminate]|]. cbn [kids_of]. apply chain_walk; auto.
    specialize (IH Gb (DB _ _ _ I)). destruct q as [|k q]; [|exact IH].
    exfalso. clear - W Gb. assert (E : @nil bytes = []) by auto. revert E W. generalize (@nil bytes) at 1 3. intros q E W. induction W as [l p v I|l p v b' I|l p v b' q x I W IH].
    + rewrite Forall_forall in Gb. apply Gb in I. destruct I as (N & _). congruence.
    + rewrite Forall_forall in Gb. apply Gb in I. apply good_block in I as [(N & _) _]. congruence.
    + rewrite Forall_forall in Gb. apply Gb in I. apply good_block in I as [(N & _) _]. destruct p; [congruence|discriminate].
Qed.
Print Assumptions loadString_keys_partial.
(** loadStrings joins the texts with ','. *)
Theorem loadStrings_joins : forall t a l, loadStrings t (a :: l) = loadString t (fold_left (fun acc x => acc ++ str "," ++ x) l a).
Proof.
  intros t a l. unfold loadStrings. f_equal. revert a. induction l as [|b l IH]; intros a; [reflexivity|].
  change (join (a :: b :: l)) with (a ++ COMMA :: join (b :: l)). rewrite IH. cbn [fold_left].
  change (str ",") with [COMMA]. clear IH. generalize dependent b. assert (X : forall l x y, x ++ fold_left (fun acc z => acc ++ [COMMA] ++ z) l y = fold_left (fun acc z => acc ++ [COMMA] ++ z) l (x ++ y)).
  { clear. induction l as [|z l IH]; intros x y; auto. cbn [fold_left]. rewrite IH. rewrite <- !app_assoc. auto. }
  intros b. change (a ++ COMMA :: fold_left (fun acc x => acc ++ [COMMA] ++ x) l b) with (a ++ [COMMA] ++ fold_left (fun acc x => acc ++ [COMMA] ++ x) l b).
  rewrite !X. auto.
Qed.

(** ** C93: getChildren *)
(** For a namespace without '.', other than the root, getChildren lists the children at the namespace. *)
Theorem getChildren_lists_partial : forall oob t p, Forall segment p -> Forall (fun w => ~ In 46%N w) p -> p <> [] ->
  getChildren oob t (view_text p) = match walk t p with Some n => Ok (pkids n) | None => BadPath end.
Proof.
  intros oob t p S ND N. unfold getChildren, imp_getChildren. rewrite view_abs, (rel_abs p N). cbn [app]. rewrite N.eqb_refl.
  destruct (rel_text p ++ [SLASH]) as [|c r] eqn:E; [destruct (rel_text p); discriminate|]. rewrite <- E, ends_with_snoc, N.eqb_refl.
  rewrite app_length, firstn_app. cbn [length]. replace (length (rel_text p) + 1 - 1 - length (rel_text p)) with 0 by lia.
  replace (length (rel_text p) + 1 - 1) with (length (rel_text p)) by lia. rewrite firstn_all. cbn [firstn]. rewrite app_nil_r.
  destruct (rel_text p) as [|c' r'] eqn:E'; [exfalso; apply (rel_nonnil p S N E')|]. rewrite <- E'.
  assert (M : map (fun c => if N.eqb c SLASH then DOT else c) (rel_text p) = dot_text p).
  { clear - S. induction p as [|w p IH]; auto. inversion S as [|? ? Sw Sp]; subst.
    assert (MW : map (fun c => if N.eqb c SLASH then DOT else c) w = w).
    { pose proof (seg_noslash w Sw) as NS. clear - NS. induction w as [|c w IH]; auto. cbn [map]. rewrite IH by (intros X; apply NS; right; auto).
      destruct (N.eqb c SLASH) eqn:E; auto. apply N.eqb_eq in E. subst. exfalso. apply NS. left; auto. }
    destruct p as [|w' p]; [exact MW|]. change (rel_text (w :: w' :: p)) with (w ++ SLASH :: rel_text (w' :: p)).
    change (dot_text (w :: w' :: p)) with (w ++ DOT :: dot_text (w' :: p)). rewrite map_app, MW. cbn [map]. rewrite N.eqb_refl, IH by auto. auto. }
  rewrite M. destruct (dot_components p) as [-> _]; [|auto].
  rewrite Forall_forall in *. intros w Hw. split; [apply (S w Hw)|apply (ND w Hw)].
Qed.
Print Assumptions getChildren_lists_partial.
(** At the root, k.back() is called on an empty string: what happens depends on memory outside of the string. *)
Theorem getChildren_root_refuted : forall t, getChildren 0%N t (view_root []) = Ok (pkids t) /\ getChildren 47%N t (view_root []) = Undefined.
Proof. intros t. split; reflexivity. Qed.
(** A namespace with a '.' names another node than the getters use. *)
Theorem getChildren_dot_refuted : exists t ns, doesKeyExist t ns [] = true /\ getX parse_string t ns (str "x") = Ok (str "1") /\ getChildren 0%N t ns = BadPath.
Proof. exists (Node [] [(str "a.b", Node [] [(str "x", Node (str "1") [])])]), (view_root (str "a.b")). vm_compute. auto. Qed.

(** ** Non-vacuity *)
Example ex_denotes : denotes (view_root (str "cam")) (str "front/fps") [str "cam"; str "front"; str "fps"].
Proof.
  refine (den_rel [str "cam"] [str "front"; str "fps"] [] _ _ _); [|discriminate|auto].
  repeat constructor; try discriminate; intros X; cbn in X; intuition discriminate.
Qed.
Example ex_set_get :
  exists t, setX print_int pempty (view_root (str "cam")) (str "front/fps") (-25)%Z = Ok t /\
    getX parse_int t (view_root []) (str "/cam/front/fps") = Ok (-25)%Z /\ getX parse_bool t (view_root []) (str "cam/front/fps") = InvalidValue.
Proof. eexists. split; [vm_compute; reflexivity|]. vm_compute. auto. Qed.
Example ex_items : Forall good [Plain [str "d"] (Some (str "0.1")); Block [str "c"; str "b"] None [Plain [str "u"] (Some (str "3")); Plain [str "v"] (Some (str "4"))]]
  /\ render_all [Plain [str "d"] (Some (str "0.1")); Block [str "c"; str "b"] None [Plain [str "u"] (Some (str "3")); Plain [str "v"] (Some (str "4"))]] = str "d=0.1,c/b{u=3,v=4}".
Proof.
  split; [|reflexivity].
  repeat constructor; try discriminate; unfold word_char; try reflexivity; intros X; cbn in X; intuition discriminate.
Qed.
Example ex_update : simple (Node [] [(str "a", Node (str "1") [(str "b", Node (str "2") [])])]).
Proof. cbn. unfold segment. repeat split; try (repeat constructor; cbn; tauto); try discriminate; intros X; cbn in X; intuition discriminate. Qed.
