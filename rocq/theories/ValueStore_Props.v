(** C52-C57, C95: value stores. *)
From Verif Require Import PTree_Model PTree_Spec PTree_Proofs ValueStore_Model ValueStore_Spec ValueStore_Proofs Strings_Model.
Open Scope nat_scope.

(** ** Examples: a layered store over two trees *)
Definition t1 : ptree := Node [] [(str "a", Node (str "1") [(str "b", Node (str "2") [])])].
Definition t2 : ptree := Node [] [(str "a", Node (str "7") []); (str "c", Node (str "x") [])].
Definition w12 : heap := [t1; t2].
Definition root : bytes := view_root [].
Definition layers12 : store := Layered [PT 0 root; Verbose (PT 1 root)].
Lemma root_view : is_view root. Proof. left. reflexivity. Qed.
Lemma no_nul (s : bytes) : existsb (N.eqb 0%N) s = false -> ~ In 0%N s.
Proof. intros E H. assert (X : existsb (N.eqb 0%N) s = true) by (apply existsb_exists; exists 0%N; auto). congruence. Qed.
Lemma pt_regular junk loc key : existsb (N.eqb 0%N) key = false -> regular junk (PT loc root) key.
Proof. intros E. split; [apply root_view|]. split; apply no_nul; auto. Qed.

(** ** C52 *)
(** Reading without default: the first layer having the key decides; an exception exactly when no layer has it or its text is
    not of the type. The heap is unchanged. *)
Theorem layered_get_partial junk A (tr : bytes -> option A) V0 w l path : regular junk (Layered l) path ->
  match find (fun v => hasKey junk w v path) l with
  | None => get junk tr V0 w (Layered l) path None = (w, VThrow)
  | Some v => exists d, lookup w v path = Some d /\
      match tr d with
      | Some x => exists h, get junk tr V0 w (Layered l) path None = (w, VOk h) /\ handle_get tr w h = VOk x
      | None => get junk tr V0 w (Layered l) path None = (w, VThrow)
      end
  end.
Proof.
  intros R. pose proof (get_none junk tr V0 w (Layered l) path R) as G.
  assert (L : match find (fun v => hasKey junk w v path) l with
              | None => lookup w (Layered l) path = None
              | Some v => exists d, lookup w v path = Some d /\ lookup w (Layered l) path = Some d end).
  { apply regular_layered in R as [_ R]. clear G. induction R as [|v l H R IH]; [reflexivity|]. cbn [find]. rewrite lookup_layered.
    rewrite (hasKey_lookup junk w v path H). destruct (lookup w v path) as [d|] eqn:E; [exists d; auto|]. exact IH. }
  destruct (find _ l) as [v|].
  - destruct L as (d & L1 & L2). exists d. split; auto. rewrite L2 in G. exact G.
  - rewrite L in G. exact G.
Qed.
(** Reading with a default: the default exactly when no layer has the key. *)
Theorem layered_default_partial junk A (tr : bytes -> option A) V0 w l path d :
  regular junk (Layered l) path -> takes_default (Layered l) path ->
  (forall x, lookup w (Layered l) path = Some x -> tr x <> None) ->
  match find (fun v => hasKey junk w v path) l with
  | None => get junk tr V0 w (Layered l) path (Some d) = (w, VOk (HConst d))
  | Some v => exists x h y, lookup w v path = Some x /\ tr x = Some y /\
      get junk tr V0 w (Layered l) path (Some d) = (w, VOk h) /\ handle_get tr w h = VOk y
  end.
Proof.
  intros R T P. pose proof (get_default junk tr V0 w (Layered l) d path R T P) as G. clear T P.
  assert (L : match find (fun v => hasKey junk w v path) l with
              | None => lookup w (Layered l) path = None
              | Some v => exists d, lookup w v path = Some d /\ lookup w (Layered l) path = Some d end).
  { apply regular_layered in R as [_ R]. clear G. induction R as [|v l H R IH]; [reflexivity|]. cbn [find]. rewrite lookup_layered.
    rewrite (hasKey_lookup junk w v path H). destruct (lookup w v path) as [x|] eqn:E; [exists x; auto|]. exact IH. }
  destruct (find _ l) as [v|].
  - destruct L as (x & L1 & L2). rewrite L2 in G. destruct G as (h & y & G1 & G2 & G3). exists x, h, y. auto.
  - rewrite L in G. exact G.
Qed.
(** the layered store has a key iff some layer has it (no restriction) *)
Theorem layered_hasKey junk w l path : hasKey junk w (Layered l) path = true <-> exists v, In v l /\ hasKey junk w v path = true.
Proof. rewrite hasKey_layered. apply existsb_exists. Qed.

(** Without layers V() is returned: no exception without a default, and the default is ignored. *)
Theorem layered_empty_refuted : exists w, get false parse_int 0%Z w (Layered []) (str "a") None = (w, VOk (HConst 0%Z)) /\
  get false parse_int 0%Z w (Layered []) (str "a") (Some 5%Z) = (w, VOk (HConst 0%Z)).
Proof. exists []. split; reflexivity. Qed.
(** A removing prefix as the last layer throws for other keys in spite of the default. *)
Theorem layered_default_refuted : exists w l path, (forall v, In v l -> hasKey true w v path = false) /\
  get true parse_int 0%Z w (Layered l) path (Some 5%Z) = (w, VThrow).
Proof.
  exists w12, [PT 0 root; mkPrefixed REMOVE (str "p") (PT 1 root)], (str "q"). split; [|vm_compute; reflexivity].
  intros v [<-|[<-|[]]]; vm_compute; reflexivity.
Qed.
(** The last layer has the key with unreadable text: without a default this is an error, with one the default hides it. *)
Theorem layered_unreadable_refuted : exists w l path, hasKey true w (Layered l) path = true /\
  get true parse_int 0%Z w (Layered l) path None = (w, VThrow) /\
  get true parse_int 0%Z w (Layered l) path (Some 5%Z) = (w, VOk (HConst 5%Z)) /\
  lookup w (Layered l) path = Some (str "x").
Proof.
  exists w12, [PT 0 root; PT 1 root], (str "c").
  split; [vm_compute; reflexivity|]. split; [vm_compute; reflexivity|]. split; vm_compute; reflexivity.
Qed.
Lemma ex_layered_regular : regular false layers12 (str "a/b") /\ regular false layers12 (str "c") /\ takes_default layers12 (str "c").
Proof.
  split; [|split].
  - split; [discriminate|]. split; [apply pt_regular; reflexivity|]. split; [|exact I]. apply (pt_regular false 1 (str "a/b")). reflexivity.
  - split; [discriminate|]. split; [apply pt_regular; reflexivity|]. split; [|exact I]. apply (pt_regular false 1 (str "c")). reflexivity.
  - exact I.
Qed.
Example ex_layered : get false parse_int 0%Z w12 layers12 (str "a/b") None = (w12, VOk (HPt (str "a/b") 0 root)) /\
  handle_get parse_int w12 (HPt (str "a/b") 0 root) = VOk 2%Z /\ lookup w12 layers12 (str "a") = Some (str "1") /\
  lookup w12 layers12 (str "c") = Some (str "x").
Proof. vm_compute. repeat split. Qed.

(** ** C53 *)
(** ADD: every operation at k is the underlying operation at prefix/k (hasKey: when the uninitialised variable is true). *)
Theorem prefix_add_partial junk A (tr : bytes -> option A) V0 w s prefix k def :
  get junk tr V0 w (mkPrefixed ADD prefix s) k def = get junk tr V0 w s (prefix ++ 47%N :: k) def /\
  hasKey true w (mkPrefixed ADD prefix s) k = hasKey true w s (prefix ++ 47%N :: k).
Proof. unfold mkPrefixed. cbn [get hasKey applyPrefix applyPrefix_ptr]. rewrite <- !app_assoc. split; reflexivity. Qed.
(** REMOVE: prefix/k is the underlying k; keys not starting with prefix/ throw, and are absent unless they are the prefix itself. *)
Theorem prefix_remove_partial junk A (tr : bytes -> option A) V0 w s prefix k def :
  get junk tr V0 w (mkPrefixed REMOVE prefix s) (prefix ++ 47%N :: k) def = get junk tr V0 w s k def /\
  hasKey junk w (mkPrefixed REMOVE prefix s) (prefix ++ 47%N :: k) = hasKey junk w s k /\
  forall key, (forall r, key <> prefix ++ 47%N :: r) ->
    get junk tr V0 w (mkPrefixed REMOVE prefix s) key def = (w, VThrow) /\
    (key <> prefix -> hasKey junk w (mkPrefixed REMOVE prefix s) key = false).
Proof.
  unfold mkPrefixed. cbn [get hasKey applyPrefix applyPrefix_ptr]. rewrite strip_drop.
  assert (D : drop_prefix (prefix ++ [SLASH]) (prefix ++ 47%N :: k) = Some k) by (apply drop_prefix_spec; rewrite <- app_assoc; reflexivity).
  rewrite D. split; auto. split; auto. intros key N. rewrite strip_drop.
  assert (D' : drop_prefix (prefix ++ [SLASH]) key = None).
  { apply drop_prefix_none. intros r X. apply (N r). rewrite X, <- app_assoc. reflexivity. }
  rewrite D'. split; auto. intros NK. rewrite bytes_eqb_neq; [rewrite andb_false_r; auto|]. intros X. apply app_inj_tail in X as [X _]. auto.
Qed.
(** hasKey in ADD mode returns its uninitialised local: with false there, an existing key is reported missing. *)
Theorem prefix_add_hasKey_refuted : exists w s prefix k, hasKey false w s (prefix ++ 47%N :: k) = true /\
  hasKey false w (mkPrefixed ADD prefix s) k = false /\ hasKey true w (mkPrefixed ADD prefix s) k = true.
Proof. exists w12, (PT 0 root), (str "a"), (str "b"). split; [|split]; vm_compute; reflexivity. Qed.
(** A store that removes "p" and is asked for "p" itself: hasKey says yes, get throws. *)
Theorem prefix_remove_hasKey_refuted : exists w s, hasKey true w (mkPrefixed REMOVE (str "p") s) (str "p") = true /\
  get true parse_string [] w (mkPrefixed REMOVE (str "p") s) (str "p") None = (w, VThrow).
Proof. exists w12, (PT 0 root). split; vm_compute; reflexivity. Qed.
(** In REMOVE mode a key that is absent is not answered with the default. *)
Theorem prefix_remove_default_refuted : exists w s k, hasKey true w (mkPrefixed REMOVE (str "p") s) k = false /\
  get true parse_int 0%Z w (mkPrefixed REMOVE (str "p") s) k (Some 5%Z) = (w, VThrow).
Proof. exists w12, (PT 0 root), (str "a/b"). split; vm_compute; reflexivity. Qed.
Example ex_prefix : get false parse_int 0%Z w12 (mkPrefixed ADD (str "a") (PT 0 root)) (str "b") None = (w12, VOk (HPt (str "a/b") 0 root)) /\
  get false parse_int 0%Z w12 (mkPrefixed REMOVE (str "p") (PT 0 root)) (str "p/a/b") None = (w12, VOk (HPt (str "a/b") 0 root)).
Proof. vm_compute. split; reflexivity. Qed.

(** ** C54 *)
(** Removing every logging wrapper changes no read, no hasKey and no isChildSupported; getChild gives the same child up to wrappers. *)
Theorem verbose_transparent_partial junk w s :
  (forall k, hasKey junk w (quiet s) k = hasKey junk w s k) /\
  (forall A (tr : bytes -> option A) V0 k def, get junk tr V0 w (quiet s) k def = get junk tr V0 w s k def) /\
  isChildSupported (quiet s) = isChildSupported s /\
  (forall k, fst (getChild junk w (quiet s) k) = fst (getChild junk w s k) /\
     match snd (getChild junk w s k) with
     | VOk c => snd (getChild junk w (quiet s) k) = VOk (quiet c)
     | VThrow => snd (getChild junk w (quiet s) k) = VThrow
     | VUndef => snd (getChild junk w (quiet s) k) = VUndef
     end).
Proof.
  split; [intros; apply quiet_hasKey|]. split; [intros; apply quiet_get|]. split; [apply quiet_supported|].
  intros k. rewrite quiet_getChild. destruct (getChild junk w s k) as [w1 [c| |]]; split; reflexivity.
Qed.
Theorem verbose_add A (pr : A -> bytes) w s k v : add pr w (Verbose s) k v = add pr w s k v.
Proof. reflexivity. Qed.
(** isEmpty is not forwarded. *)
Theorem verbose_isEmpty_refuted : exists w s, isEmpty w s = true /\ isEmpty w (Verbose s) = false.
Proof. exists [pempty], (PT 0 root). split; reflexivity. Qed.
(** getChildren asks getChild for each key: of two children with the same name the first is returned twice. *)
Theorem verbose_getChildren_refuted : exists w w1 w2 s c1 c2 d1 d2,
  getChildren_vs true 0%N w s = Some (w1, VOk [(str "a", c1); (str "a", c2)]) /\
  getChildren_vs true 0%N w (Verbose s) = Some (w2, VOk [(str "a", d1); (str "a", d2)]) /\
  lookup w1 c2 (str "x") = Some (str "2") /\ lookup w2 d2 (str "x") = Some (str "1").
Proof.
  set (t := Node [] [(str "a", Node [] [(str "x", Node (str "1") [])]); (str "a", Node [] [(str "x", Node (str "2") [])])]).
  exists [t], [t; Node [] [(str "x", Node (str "1") [])]; Node [] [(str "x", Node (str "2") [])]],
    [t; Node [] [(str "x", Node (str "1") [])]; Node [] [(str "x", Node (str "2") [])]], (PT 0 root), (PT 1 root), (PT 2 root),
    (Verbose (PT 0 (str "/a/"))), (Verbose (PT 0 (str "/a/"))).
  split; [vm_compute; reflexivity|]. split; [vm_compute; reflexivity|]. split; vm_compute; reflexivity.
Qed.
Example ex_verbose : quiet (Layered [Verbose (PT 0 root); Prefixed ADD (str "p/") (Verbose (Verbose (PT 1 root)))])
  = Layered [PT 0 root; Prefixed ADD (str "p/") (PT 1 root)].
Proof. reflexivity. Qed.

(** ** C55 *)
(** An alternative list as the caller means it: current names, and deprecated names each with its message. *)
Inductive alternative := Current (key : bytes) | Deprecated (key message : bytes).
Definition alt_key (a : alternative) : bytes := match a with Current k => k | Deprecated k _ => k end.
Definition alt_text (a : alternative) : list bytes := match a with Current k => [k] | Deprecated k m => [33%N :: k; m] end.
Definition alt_alerts (a : alternative) : list (bytes * bytes) := match a with Current _ => [] | Deprecated k m => [(k, m)] end.
(** current names do not start with '!'; a message is not itself the name of an existing key *)
Definition alt_ok (has : bytes -> bool) (a : alternative) : Prop :=
  match a with
  | Current k => forall r, k <> 33%N :: r
  | Deprecated _ m => has m = false /\ forall r, m = 33%N :: r -> has r = false
  end.
Lemma find_path_current has front k r : (forall x, k <> 33%N :: x) ->
  find_path has front (k :: r) = if has k then (k, []) else find_path has front r.
Proof.
  intros N. cbn [find_path]. destruct k as [|c k]; auto. unfold BANG. destruct (N.eqb c 33) eqn:E; auto. apply N.eqb_eq in E. subst. exfalso. eapply N; eauto.
Qed.
Lemma find_path_text has front m r : has m = false -> (forall x, m = 33%N :: x -> has x = false) -> find_path has front (m :: r) = find_path has front r.
Proof.
  intros H X. cbn [find_path]. destruct m as [|c m]; [rewrite H; auto|]. unfold BANG. destruct (N.eqb c 33) eqn:E; [|rewrite H; auto].
  apply N.eqb_eq in E. subst. rewrite (X m eq_refl). auto.
Qed.
Lemma find_path_skip has front a r : alt_ok has a -> has (alt_key a) = false -> find_path has front (alt_text a ++ r) = find_path has front r.
Proof.
  intros O H. destruct a as [k|k m]; cbn [alt_text alt_key app alt_ok] in *.
  - rewrite find_path_current, H; auto.
  - transitivity (find_path has front (m :: r)); [cbn [find_path]; change (N.eqb 33 BANG) with true; cbn iota; rewrite H; auto|].
    destruct O. apply find_path_text; auto.
Qed.
Lemma find_path_hit has front a r : alt_ok has a -> has (alt_key a) = true -> find_path has front (alt_text a ++ r) = (alt_key a, alt_alerts a).
Proof.
  intros O H. destruct a as [k|k m]; cbn [alt_text alt_key app alt_ok alt_alerts] in *.
  - rewrite find_path_current, H; auto.
  - cbn [find_path]. change (N.eqb 33 BANG) with true. cbn iota. rewrite H. auto.
Qed.
(** The first existing alternative is used; exactly a deprecated one raises one alert, with its key and its message. *)
Theorem alternatives_first_partial has before a after : Forall (alt_ok has) (before ++ [a]) ->
  (forall b, In b before -> has (alt_key b) = false) -> has (alt_key a) = true ->
  findPathAndAlert has (flat_map alt_text (before ++ a :: after)) = VOk (alt_key a, alt_alerts a).
Proof.
  intros O M H. unfold findPathAndAlert. set (full := flat_map alt_text (before ++ a :: after)). destruct full as [|front r] eqn:E.
  - exfalso. unfold full in E. rewrite flat_map_app in E. apply app_eq_nil in E as [_ E]. destruct a; discriminate.
  - rewrite <- E. unfold full. clear E full. f_equal. apply Forall_app in O as [O1 O2]. inversion O2; subst. clear O2.
    induction O1 as [|b before Ob O1 IH]; cbn [app flat_map].
    + apply find_path_hit; auto.
    + rewrite find_path_skip; auto; [apply IH; intros; apply M; right; auto|apply M; left; auto].
Qed.
(** None exists: the first name, when that is a current one, and no alert. *)
Theorem alternatives_none_partial has k rest : Forall (alt_ok has) (Current k :: rest) ->
  (forall b, In b (Current k :: rest) -> has (alt_key b) = false) ->
  findPathAndAlert has (flat_map alt_text (Current k :: rest)) = VOk (k, []).
Proof.
  intros O M. cbn [flat_map alt_text app findPathAndAlert]. f_equal. change (k :: flat_map alt_text rest) with (flat_map alt_text (Current k :: rest)).
  induction O as [|b l Ob O IH]; [reflexivity|]. cbn [flat_map]. rewrite find_path_skip; auto; [|apply M; left; auto]. apply IH. intros. apply M; right; auto.
Qed.
(** The last deprecated name may come without a message: then the alert names the first entry of the list. *)
Theorem alternatives_last_partial has k rest old : Forall (alt_ok has) (Current k :: rest) ->
  (forall b, In b (Current k :: rest) -> has (alt_key b) = false) -> has old = true ->
  exists msg, findPathAndAlert has (flat_map alt_text (Current k :: rest) ++ [33%N :: old]) = VOk (old, [(old, msg)]) /\
    msg = str "Property name '" ++ old ++ str "' is deprecated! Use " ++ k ++ str " instead.".
Proof.
  intros O M H. eexists. split; [|reflexivity]. cbn [flat_map alt_text app findPathAndAlert]. f_equal.
  change (k :: flat_map alt_text rest ++ [33%N :: old]) with (flat_map alt_text (Current k :: rest) ++ [33%N :: old]).
  assert (G : forall l, Forall (alt_ok has) l -> (forall b, In b l -> has (alt_key b) = false) ->
    find_path has k (flat_map alt_text l ++ [33%N :: old]) = (old, [(old, deprecated_text old k)])).
  { clear O M. intros l O M. induction O as [|b l Ob O IH].
    - cbn [flat_map app find_path]. change (N.eqb 33 BANG) with true. cbn iota. rewrite H. auto.
    - cbn [flat_map]. rewrite <- app_assoc, find_path_skip; auto; [|apply M; left; auto]. apply IH. intros. apply M; right; auto. }
  apply G; auto.
Qed.
(** The message of a missing deprecated name is tried as a key: existing names can be read without any alert. *)
Theorem alternatives_message_refuted : exists has, has (str "old") = false /\ has (str "new") = false /\
  findPathAndAlert has (flat_map alt_text [Current (str "new"); Deprecated (str "old") (str "msg")]) = VOk (str "msg", []).
Proof. exists (bytes_eqb (str "msg")). split; [|split]; vm_compute; reflexivity. Qed.
(** No alternative exists and the first is deprecated: the result is the text with '!', which is no key name. *)
Theorem alternatives_front_refuted : findPathAndAlert (fun _ => false) (flat_map alt_text [Deprecated (str "old") (str "msg"); Current (str "new")]) = VOk (str "!old", []).
Proof. vm_compute. reflexivity. Qed.
(** An empty list is undefined behaviour. *)
Theorem alternatives_empty_refuted has : findPathAndAlert has [] = VUndef. Proof. reflexivity. Qed.
Example ex_alternatives : let has := bytes_eqb (str "older") in
  Forall (alt_ok has) [Current (str "new"); Deprecated (str "old") (str "use new"); Deprecated (str "older") (str "use new!")] /\
  findPathAndAlert has [str "new"; str "!old"; str "use new"; str "!older"; str "use new!"] = VOk (str "older", [(str "older", str "use new!")]).
Proof.
  cbn zeta. split; [|vm_compute; reflexivity]. constructor; [intros r X; discriminate|]. constructor; [split; [reflexivity|intros r X; discriminate]|].
  constructor; [split; [reflexivity|intros r X; discriminate]|constructor].
Qed.

(** ** C56 *)
Lemma plain_unsupported junk s : plain junk s -> isChildSupported s = false -> junk = true.
Proof.
  induction s as [loc ns|f|l IH|m p v IH|v IH] using store_ind'; intros P S; try discriminate; auto.
  - apply plain_layers in P. induction l as [|v l IHl]; [discriminate|]. inversion IH; inversion P; subst. cbn [isChildSupported] in S.
    destruct (isChildSupported v) eqn:E; auto.
  - destruct m; [discriminate|destruct P].
Qed.
(** The child of a (through its reference, which falls back to a prefix when children are not supported) reads at k what the
    store reads at a/k. *)
Theorem child_reads_partial junk w s a : plain junk s -> a <> [] -> ends_with 47%N a = false ->
  exists c, ref_getChild junk w s a = (w, VOk c) /\ plain junk c /\ (valid w s -> valid w c) /\
    forall k, (forall r, k <> 47%N :: r) -> same_reads junk c k s (a ++ 47%N :: k).
Proof.
  intros P N E. unfold ref_getChild. destruct (isChildSupported s) eqn:S; [exact (child_same junk s w a P S N E)|].
  pose proof (plain_unsupported junk s P S). subst junk. exists (mkPrefixed ADD a s). split; auto. split; [reflexivity|]. split; auto.
  intros k K w'. unfold mkPrefixed. cbn [hasKey get applyPrefix_ptr applyPrefix andb].
  replace ((a ++ [SLASH]) ++ k) with (a ++ 47%N :: k) by (rewrite <- app_assoc; reflexivity). split; auto. intros. apply same_result_refl.
Qed.
(** getChild(a).getChild(b) and getChild(a/b) read the same. *)
Theorem child_child_partial junk w s a b : plain junk s -> a <> [] -> ends_with 47%N a = false -> b <> [] -> ends_with 47%N b = false ->
  (forall r, b <> 47%N :: r) ->
  exists c cc c', ref_getChild junk w s a = (w, VOk c) /\ ref_getChild junk w c b = (w, VOk cc) /\
    ref_getChild junk w s (a ++ 47%N :: b) = (w, VOk c') /\ forall k, (forall r, k <> 47%N :: r) -> same_reads junk cc k c' k.
Proof.
  intros P Na Ea Nb Eb Kb. destruct (child_reads_partial junk w s a P Na Ea) as (c & C1 & C2 & _ & C4).
  destruct (child_reads_partial junk w c b C2 Nb Eb) as (cc & D1 & D2 & _ & D4).
  assert (Nab : a ++ 47%N :: b <> []) by (destruct a; discriminate).
  assert (Eab : ends_with 47%N (a ++ 47%N :: b) = false).
  { rewrite ends_with_app by discriminate. change (47%N :: b) with ([47%N] ++ b). rewrite ends_with_app; auto. }
  destruct (child_reads_partial junk w s (a ++ 47%N :: b) P Nab Eab) as (c' & F1 & F2 & _ & F4).
  exists c, cc, c'. split; [exact C1|]. split; [exact D1|]. split; [exact F1|]. intros k K. eapply same_reads_trans; [apply D4; auto|]. apply same_reads_sym.
  eapply same_reads_trans; [apply F4; auto|]. rewrite <- app_assoc. cbn [app]. apply same_reads_sym. apply C4.
  intros r X. destruct b as [|x b]; [congruence|]. cbn [app] in X. injection X as -> _. eapply Kb; eauto.
Qed.
(** With a removing prefix the child is wrong: the child of p/a of a store removing p still expects a/ in front of its keys. *)
Theorem child_remove_refuted : exists w s c, ref_getChild true w s (str "p/a") = (w, VOk c) /\
  hasKey true w s (str "p/a/b") = true /\ hasKey true w c (str "b") = false /\ hasKey true w c (str "a/a/b") = true.
Proof.
  exists w12, (mkPrefixed REMOVE (str "p") (PT 0 root)), (mkPrefixed REMOVE (str "a") (PT 0 root)).
  split; [vm_compute; reflexivity|]. split; [vm_compute; reflexivity|]. split; vm_compute; reflexivity.
Qed.
(** The child of a part of the prefix is an unrelated empty store. *)
Theorem child_remove_part_refuted : exists w w' s c, ref_getChild true w s (str "p") = (w', VOk c) /\
  hasKey true w s (str "p/q/a") = true /\ hasKey true w' c (str "q/a") = false /\ isEmpty w' c = true.
Proof.
  exists w12, (w12 ++ [pempty]), (mkPrefixed REMOVE (str "p/q") (PT 0 root)), (PT 2 root).
  split; [vm_compute; reflexivity|]. split; [vm_compute; reflexivity|]. split; vm_compute; reflexivity.
Qed.
Example ex_child : plain true (Layered [PT 0 root; Flat (fun k => if bytes_eqb k (str "a/z") then Some (str "9") else None)]) /\
  let s := Layered [PT 0 root; Flat (fun k => if bytes_eqb k (str "a/z") then Some (str "9") else None)] in
  exists c, ref_getChild true w12 s (str "a") = (w12, VOk c) /\ hasKey true w12 c (str "z") = true /\ hasKey true w12 c (str "b") = true.
Proof. split; [split; [apply root_view|split; [reflexivity|exact I]]|]. cbn zeta. eexists. split; [reflexivity|]. split; vm_compute; reflexivity. Qed.

(** ** C57 *)
Lemma walk_put_existing t p v q : walk t p <> None -> (walk (put_comps t p v) q = None <-> walk t q = None).
Proof.
  intros H. rewrite !walk_value, put_value_at. destruct (path_eq_dec q p) as [->|N].
  - split; [discriminate|]. intros X. apply walk_value in X. congruence.
  - destruct (value_at t q) as [x|] eqn:E; [split; discriminate|]. destruct (pre q p) eqn:PR; [|tauto]. exfalso. apply pre_spec in PR as (r & _ & ->).
    apply H. rewrite walk_app. apply walk_value in E. rewrite E. auto.
Qed.
Section Handles.
Context {A : Type} (tr : bytes -> option A) (pr : A -> bytes) (V0 : A).
(** an updateable handle comes from an existing node of a tree and the heap is untouched *)
Lemma handle_source junk w s : valid w s -> forall path w1 h, get junk tr V0 w s path None = (w1, VOk h) -> isUpdateable h = true ->
  w1 = w /\ exists p loc ns, h = HPt p loc ns /\ loc < length w /\ node_at (hget w loc) ns p <> None.
Proof.
  induction s as [loc ns|f|l IH|m p v IH|v IH] using store_ind'; intros V path w1 h E U.
  - cbn [get] in E. unfold getFromPt in E. rewrite getX_node in E. destruct (node_at (hget w loc) ns path) as [n|] eqn:N; [|discriminate].
    destruct (tr (pdata n)); [|discriminate]. injection E as <- <-. split; auto. exists path, loc, ns. split; auto. split; [exact V|congruence].
  - cbn [get] in E. destruct (f path) as [x|]; [|discriminate]. destruct (tr x); [|discriminate]. injection E as <- <-. discriminate.
  - induction l as [|v l IHl]; [cbn in E; injection E as <- <-; discriminate|]. inversion IH as [|? ? I1 I2]; subst. destruct V as [V1 V2].
    destruct l as [|v' l]; [rewrite get_layered1 in E; eapply I1; eauto|]. rewrite get_layered in E. destruct (hasKey junk w v path); [eapply I1; eauto|]. apply IHl; auto.
  - cbn [get valid] in *. destruct (applyPrefix m p path); try discriminate. eapply IH; eauto.
  - rewrite get_verbose in E. eapply IH; eauto.
Qed.
Lemma get_after junk w w' s : (forall s' k, hasKey junk w' s' k = hasKey junk w s' k) ->
  forall path w1 h, get junk tr V0 w s path None = (w1, VOk h) -> (exists v, handle_get tr w' h = VOk v) -> get junk tr V0 w' s path None = (w', VOk h).
Proof.
  intros HK. induction s as [loc ns|f|l IH|m p v IH|v IH] using store_ind'; intros path w1 h E (v0 & G).
  - cbn [get] in *. unfold getFromPt in *. destruct (getX tr (hget w loc) ns path); try discriminate. injection E as <- <-. cbn [handle_get] in G.
    destruct (getX tr (hget w' loc) ns path); try discriminate. auto.
  - cbn [get] in *. destruct (f path) as [x|]; [|discriminate]. destruct (tr x); [|discriminate]. injection E as <- <-. auto.
  - induction l as [|v l IHl]; [cbn in *; injection E as <- <-; reflexivity|]. inversion IH as [|? ? I1 I2]; subst.
    destruct l as [|v' l]; [rewrite get_layered1 in *; eapply I1; eauto|]. rewrite get_layered in *. rewrite HK. destruct (hasKey junk w v path); [eapply I1; eauto|]. apply IHl; auto.
  - cbn [get] in *. destruct (applyPrefix m p path); try discriminate. eapply IH; eauto.
  - rewrite get_verbose in *. eapply IH; eauto.
Qed.
Lemma hasKey_after junk w w' : (forall loc ns k, doesKeyExist (hget w' loc) ns k = doesKeyExist (hget w loc) ns k) ->
  forall s k, hasKey junk w' s k = hasKey junk w s k.
Proof.
  intros H s. induction s as [loc ns|f|l IH|m p v IH|v IH] using store_ind'; intros k; auto.
  - cbn [hasKey]. apply H.
  - rewrite !hasKey_layered. induction l as [|v l IHl]; auto. inversion IH; subst. cbn [existsb]. rewrite IHl; auto. f_equal. auto.
  - cbn [hasKey]. destruct (applyPrefix_ptr junk m p k) as [q b]. rewrite IH. auto.
  - cbn [hasKey]. apply IH.
Qed.
(** An updateable handle writes through: update succeeds, the handle and the key then read the new value (when the type's text
    form reads back), and no key of any store appears or disappears. *)
Theorem update_writes_through junk nd w s path w1 h v : valid w s -> get junk tr V0 w s path None = (w1, VOk h) -> isUpdateable h = true ->
  tr (pr v) = Some v ->
  exists w', handle_update pr nd w1 h v = (w', VOk tt) /\ handle_get tr w' h = VOk v /\
    get junk tr V0 w' s path None = (w', VOk h) /\ forall s' k, hasKey junk w' s' k = hasKey junk w1 s' k.
Proof.
  intros V G U RT. destruct (handle_source junk w s V path w1 h G U) as (-> & p & loc & ns & -> & L & N).
  unfold node_at in N. cbn [handle_update]. unfold setX, imp_set, put. set (q := skipn 1 (buildQualifiedKeyName ns p)) in *.
  assert (exists t, (match walk (hget w loc) (components SLASH q) with None => if ends_with SLASH q then Undefined else Ok (put_comps (hget w loc) (components SLASH q) (pr v))
    | Some _ => Ok (put_comps (hget w loc) (components SLASH q) (pr v)) end) = Ok t /\ t = put_comps (hget w loc) (components SLASH q) (pr v)) as (t & E & Et).
  { destruct (walk (hget w loc) (components SLASH q)); [eauto|congruence]. }
  rewrite E. exists (hset w loc t). split; auto.
  assert (HG : handle_get tr (hset w loc t) (HPt p loc ns) = VOk v).
  { cbn [handle_get]. rewrite hget_hset by auto. rewrite getX_node. unfold node_at. fold q. rewrite Et.
    pose proof (put_same (components SLASH q) (hget w loc) (pr v)) as PS. unfold value_at in PS.
    destruct (walk (put_comps (hget w loc) (components SLASH q) (pr v)) (components SLASH q)) as [n|]; [|discriminate]. cbn in PS. injection PS as ->. rewrite RT. auto. }
  assert (HK : forall s' k, hasKey junk (hset w loc t) s' k = hasKey junk w s' k).
  { refine (hasKey_after junk w (hset w loc t) _). intros loc' ns' k. destruct (Nat.eq_dec loc loc') as [<-|D]; [|rewrite hget_hset_other; auto]. rewrite hget_hset by auto.
    unfold doesKeyExist, imp_doesKeyExist, get_optional. subst t.
    assert (W : forall x, (match walk (put_comps (hget w loc) (components SLASH q) (pr v)) x with Some n => parse_string (pdata n) | None => None end) = None <->
                          (match walk (hget w loc) x with Some n => parse_string (pdata n) | None => None end) = None).
    { intros x. pose proof (walk_put_existing (hget w loc) (components SLASH q) (pr v) x N) as Z.
      destruct (walk (put_comps (hget w loc) (components SLASH q) (pr v)) x), (walk (hget w loc) x); cbn [parse_string]; split; intros Y;
        try reflexivity; try discriminate Y; destruct Z as [Z1 Z2]; (discriminate (Z1 eq_refl) || discriminate (Z2 eq_refl)). }
    set (x := components SLASH (c_str _)). specialize (W x).
    destruct (match walk (put_comps (hget w loc) (components SLASH q) (pr v)) x with Some n => parse_string (pdata n) | None => None end),
      (match walk (hget w loc) x with Some n => parse_string (pdata n) | None => None end); try reflexivity;
      destruct W as [W1 W2]; (discriminate (W1 eq_refl) || discriminate (W2 eq_refl)). }
  split; auto. split; auto. eapply get_after; eauto.
Qed.
(** A constant handle refuses: it never changes a tree or its own value (the assertion fails, or with NDEBUG nothing happens). *)
Theorem constant_refuses nd w (h : handle A) v : isUpdateable h = false ->
  fst (handle_update pr nd w h v) = w /\ (nd = false -> snd (handle_update pr nd w h v) = VUndef) /\
  forall w', handle_get tr w' h = handle_get tr w h.
Proof. destruct h; [|discriminate]. intros _. cbn [handle_update fst snd handle_get]. split; auto. split; auto. intros ->. auto. Qed.
End Handles.
Example ex_update : exists w', handle_update print_int true w12 (HPt (str "a/b") 0 root) 42%Z = (w', VOk tt) /\
  get false parse_int 0%Z w' layers12 (str "a/b") None = (w', VOk (HPt (str "a/b") 0 root)) /\
  handle_get parse_int w' (HPt (str "a/b") 0 root) = VOk 42%Z /\ valid w12 layers12.
Proof. eexists. split; [vm_compute; reflexivity|]. split; [vm_compute; reflexivity|]. split; [vm_compute; reflexivity|]. cbn. repeat split; lia. Qed.

(** ** C95: a store seen as a property tree *)
(** Reads through the view with namespace and key naming the path p are the reads of the store at p's text. *)
Theorem asPropertyTree_reads junk A (tr : bytes -> option A) V0 w s ns key p def : denotes ns key p ->
  asPT_doesKeyExist junk w s ns key = hasKey junk w s (rel_text p) /\
  exists r, get junk tr V0 w s (rel_text p) def = r /\
    fst (asPT_get junk tr V0 w s ns key def) = fst r /\
    snd (asPT_get junk tr V0 w s ns key def) =
      match snd r with VOk h => handle_get tr (fst r) h | VThrow => VThrow | VUndef => VUndef end.
Proof.
  intros D. apply denotes_qualified in D as (F & N & Q). unfold asPT_doesKeyExist, asPT_get. rewrite Q, rel_abs by auto.
  change (translateKey (SLASH :: rel_text p)) with (rel_text p). split; auto. eexists. split; [reflexivity|].
  destruct (get junk tr V0 w s (rel_text p) def) as [w' [h| |]]; auto.
Qed.
Example ex_asPT : asPT_get false parse_int 0%Z w12 layers12 (str "/a/") (str "b") None = (w12, VOk 2%Z).
Proof. vm_compute. reflexivity. Qed.

Print Assumptions layered_get_partial. Print Assumptions layered_default_partial. Print Assumptions layered_hasKey.
Print Assumptions layered_empty_refuted. Print Assumptions layered_default_refuted. Print Assumptions layered_unreadable_refuted.
Print Assumptions prefix_add_partial. Print Assumptions prefix_remove_partial. Print Assumptions verbose_transparent_partial.
Print Assumptions verbose_getChildren_refuted. Print Assumptions alternatives_first_partial. Print Assumptions alternatives_none_partial.
Print Assumptions alternatives_last_partial. Print Assumptions child_reads_partial. Print Assumptions child_child_partial.
Print Assumptions update_writes_through. Print Assumptions constant_refuses. Print Assumptions asPropertyTree_reads.
