From Verif Require Import PTree_Model PTree_Spec PTree_Proofs ValueStore_Model ValueStore_Spec Strings_Model.
Open Scope nat_scope.

Fixpoint store_ind' (P : store -> Prop) (H1 : forall l ns, P (PT l ns)) (H2 : forall f, P (Flat f))
  (H3 : forall l, Forall P l -> P (Layered l)) (H4 : forall m p v, P v -> P (Prefixed m p v)) (H5 : forall v, P v -> P (Verbose v))
  (s : store) {struct s} : P s :=
  match s with
  | PT l ns => H1 l ns
  | Flat f => H2 f
  | Layered l => H3 l ((fix go l : Forall P l := match l with [] => Forall_nil _ | v :: r => Forall_cons _ (store_ind' P H1 H2 H3 H4 H5 v) (go r) end) l)
  | Prefixed m p v => H4 m p v (store_ind' P H1 H2 H3 H4 H5 v)
  | Verbose v => H5 v (store_ind' P H1 H2 H3 H4 H5 v)
  end.

Lemma strip_drop prefix path : strip_prefix prefix path = drop_prefix prefix path.
Proof.
  unfold strip_prefix. revert path. induction prefix as [|a p IH]; intros path; [reflexivity|].
  destruct path as [|b path]; [reflexivity|]. cbn [length firstn skipn drop_prefix bytes_eqb Nat.leb]. specialize (IH path).
  rewrite (N.eqb_sym b a). destruct (N.eqb a b); [|rewrite andb_false_r; reflexivity]. cbn [andb]. exact IH.
Qed.
Lemma drop_prefix_spec p s r : drop_prefix p s = Some r <-> s = p ++ r.
Proof.
  revert s. induction p as [|a p IH]; intros s; cbn [drop_prefix app]; [split; congruence|]. destruct s as [|b s]; [split; discriminate|].
  destruct (N.eqb a b) eqn:E.
  - apply N.eqb_eq in E. subst b. rewrite IH. split; congruence.
  - split; [discriminate|]. intros X. injection X as -> _. rewrite N.eqb_refl in E. discriminate.
Qed.
Lemma drop_prefix_none p s : drop_prefix p s = None <-> forall r, s <> p ++ r.
Proof.
  destruct (drop_prefix p s) as [r|] eqn:E; split; try discriminate; auto.
  - intros H. apply drop_prefix_spec in E. exfalso. eapply H; eauto.
  - intros _ r X. apply drop_prefix_spec in X. congruence.
Qed.
Lemma hget_hset w loc t : loc < length w -> hget (hset w loc t) loc = t.
Proof. unfold hget. revert loc. induction w as [|x w IH]; intros [|n] H; cbn [hset nth length] in *; auto; try lia. apply IH. lia. Qed.
Lemma hget_hset_other w loc loc' t : loc <> loc' -> hget (hset w loc t) loc' = hget w loc'.
Proof. unfold hget. revert loc loc'. induction w as [|x w IH]; intros [|n] [|m] H; cbn [hset nth]; auto; try congruence. Qed.
Lemma hset_same w loc : hset w loc (hget w loc) = w.
Proof. unfold hget. revert loc. induction w as [|x w IH]; intros [|n]; cbn [hset nth]; auto. f_equal. apply IH. Qed.

(** qualified keys *)
Lemma is_view_head ns : is_view ns -> exists r, ns = SLASH :: r.
Proof. intros [->|(m & ->)]; eauto. Qed.
Lemma qualified_head ns key : is_view ns -> exists r, buildQualifiedKeyName ns key = SLASH :: r.
Proof.
  intros V. unfold buildQualifiedKeyName.
  assert (H : exists r, match key with [] => ns ++ key | c :: _ => if N.eqb c SLASH then key else ns ++ key end = SLASH :: r).
  { destruct (is_view_head ns V) as (r & ->). destruct key as [|c key]; cbn [app]; eauto. destruct (N.eqb c SLASH) eqn:E; eauto.
    apply N.eqb_eq in E. subst. eauto. }
  destruct H as (r & ->). destruct ((1 <? length (SLASH :: r)) && ends_with SLASH (SLASH :: r)) eqn:E; eauto.
  apply andb_true_iff in E as [E _]. apply Nat.ltb_lt in E. destruct r as [|c r]; [cbn in E; lia|]. exists (firstn (length r) (c :: r)).
  replace (length (SLASH :: c :: r) - 1) with (S (length r)) by (cbn [length]; lia). reflexivity.
Qed.
Lemma firstn_in {A} (x : A) n l : In x (firstn n l) -> In x l.
Proof. revert l. induction n; intros [|y l]; cbn; auto. intros []. intuition. Qed.
Lemma qualified_nonul ns key : ~ In 0%N ns -> ~ In 0%N key -> ~ In 0%N (buildQualifiedKeyName ns key).
Proof.
  intros N K X. unfold buildQualifiedKeyName in X.
  assert (Y : In 0%N (match key with [] => ns ++ key | c :: _ => if N.eqb c SLASH then key else ns ++ key end)).
  { destruct (_ && _); [eapply firstn_in; eauto|auto]. }
  destruct key as [|c key]; [rewrite app_nil_r in Y; auto|]. destruct (N.eqb c SLASH); auto. apply in_app_or in Y as [Y|Y]; auto.
Qed.
Lemma c_str_id l : ~ In 0%N l -> c_str l = l.
Proof.
  induction l as [|c l IH]; auto. intros H. cbn [c_str]. destruct (N.eqb c 0) eqn:E.
  - apply N.eqb_eq in E. subst. exfalso. apply H. left. auto.
  - rewrite IH; auto. intros X. apply H. right. auto.
Qed.
(** the node a key names *)
Definition node_at (t : ptree) (ns key : bytes) : option ptree := walk t (components SLASH (skipn 1 (buildQualifiedKeyName ns key))).
Lemma getX_node {A} (tr : bytes -> option A) t ns key :
  getX tr t ns key = match node_at t ns key with None => InvalidKey | Some n => match tr (pdata n) with Some a => Ok a | None => InvalidValue end end.
Proof. reflexivity. Qed.
Lemma exist_node t ns key : is_view ns -> ~ In 0%N ns -> ~ In 0%N key -> doesKeyExist t ns key = match node_at t ns key with Some _ => true | None => false end.
Proof.
  intros V N K. unfold doesKeyExist, imp_doesKeyExist, node_at, get_optional. pose proof (qualified_nonul ns key N K) as NN.
  destruct (qualified_head ns key V) as (r & E). rewrite E in *. rewrite N.eqb_refl. cbn [skipn].
  rewrite c_str_id by (intros X; apply NN; right; auto). destruct (walk _ _); auto.
Qed.

Section S.
Variable junk : bool.
Notation hasKey := (hasKey junk).
Lemma hasKey_layered w l path : hasKey w (Layered l) path = existsb (fun v => hasKey w v path) l.
Proof.
  induction l as [|v l IH]; [reflexivity|]. cbn [existsb]. rewrite <- IH.
  transitivity (if hasKey w v path then true else hasKey w (Layered l) path); [reflexivity|]. destruct (hasKey w v path); reflexivity.
Qed.
Lemma lookup_layered w v l path : lookup w (Layered (v :: l)) path = match lookup w v path with Some d => Some d | None => lookup w (Layered l) path end.
Proof. reflexivity. Qed.
Lemma regular_layered l path : regular junk (Layered l) path -> l <> [] /\ Forall (fun v => regular junk v path) l.
Proof. cbn [regular]. intros [N H]. split; auto. clear N. induction l as [|v l IH]; constructor; intuition. Qed.

Lemma hasKey_lookup w s : forall path, regular junk s path -> hasKey w s path = match lookup w s path with Some _ => true | None => false end.
Proof.
  induction s as [loc ns|f|l IH|m p v IH|v IH] using store_ind'; intros path R.
  - destruct R as (V & N & K). cbn [ValueStore_Model.hasKey lookup]. rewrite exist_node, getX_node by auto. destruct (node_at _ _ _); auto.
  - reflexivity.
  - apply regular_layered in R as [_ R]. rewrite hasKey_layered. induction l as [|v l IHl]; auto.
    inversion IH as [|? ? I1 I2]; subst. inversion R as [|? ? R1 R2]; subst. rewrite lookup_layered. cbn [existsb]. rewrite (I1 path R1).
    destruct (lookup w v path) as [d|]; [reflexivity|]. apply IHl; auto.
  - cbn [ValueStore_Model.hasKey lookup regular] in *. destruct m; cbn [applyPrefix_ptr].
    + destruct R as [-> R]. cbn [andb]. apply IH. auto.
    + rewrite strip_drop. destruct (drop_prefix p path) as [r|]; [cbn [andb]; apply IH; auto|].
      change [SLASH] with [47%N]. rewrite (bytes_eqb_neq (path ++ [47%N]) p R), andb_false_r. auto.
  - cbn [ValueStore_Model.hasKey lookup regular] in *. auto.
Qed.

Section T.
Context {A : Type} (tr : bytes -> option A) (pr : A -> bytes) (V0 : A).
Notation get := (get junk tr V0).
Lemma get_layered w v v' l path def : get w (Layered (v :: v' :: l)) path def = if hasKey w v path then get w v path None else get w (Layered (v' :: l)) path def.
Proof. reflexivity. Qed.
Lemma get_layered1 w v path def : get w (Layered [v]) path def = get w v path def.
Proof. reflexivity. Qed.

(** a handle that was handed out can be read *)
Lemma get_readable w s : forall path def w' h, get w s path def = (w', VOk h) -> exists v, handle_get tr w' h = VOk v.
Proof.
  induction s as [loc ns|f|l IH|m p v IH|v IH] using store_ind'; intros path def w' h E.
  - cbn [ValueStore_Model.get] in E. unfold getFromPt in E. destruct def as [d|].
    + injection E as <- <-. cbn [handle_get]. eauto.
    + destruct (getX tr (hget w loc) ns path) as [x| | | | | |] eqn:G; try discriminate. injection E as <- <-. cbn [handle_get]. rewrite G. cbn. eauto.
  - cbn [ValueStore_Model.get] in E. destruct (f path) as [x|].
    + destruct (tr x); [|discriminate]. injection E as <- <-. cbn [handle_get]. eauto.
    + destruct def; [|discriminate]. injection E as <- <-. cbn [handle_get]. eauto.
  - induction l as [|v l IHl]; [cbn in E; injection E as <- <-; cbn; eauto|]. inversion IH as [|? ? I1 I2]; subst.
    destruct l as [|v' l]; [rewrite get_layered1 in E; eapply I1; eauto|]. rewrite get_layered in E. destruct (hasKey w v path); [eapply I1; eauto|].
    apply IHl; auto.
  - cbn [ValueStore_Model.get] in E. destruct (applyPrefix m p path); try discriminate. eapply IH; eauto.
  - cbn [ValueStore_Model.get] in E. destruct (get w v path def) as [w1 [h1| |]] eqn:G; try discriminate.
    destruct (handle_get tr w1 h1) eqn:HG; try discriminate. injection E as <- <-. cbn [handle_get]. eauto.
Qed.
Lemma get_verbose w v path def : get w (Verbose v) path def = get w v path def.
Proof.
  cbn [ValueStore_Model.get]. destruct (get w v path def) as [w1 [h| |]] eqn:G; auto.
  destruct (get_readable w v path def w1 h G) as (x & ->). auto.
Qed.

Lemma get_none w s : forall path, regular junk s path ->
  match lookup w s path with
  | Some d => match tr d with
              | Some v => exists h, get w s path None = (w, VOk h) /\ handle_get tr w h = VOk v
              | None => get w s path None = (w, VThrow)
              end
  | None => get w s path None = (w, VThrow)
  end.
Proof.
  induction s as [loc ns|f|l IH|m p v IH|v IH] using store_ind'; intros path R.
  - cbn [ValueStore_Model.get lookup]. unfold getFromPt. rewrite !getX_node. destruct (node_at (hget w loc) ns path) as [n|] eqn:E; auto. cbn [parse_string].
    destruct (tr (pdata n)) eqn:T; auto. eexists. split; eauto. cbn [handle_get]. rewrite getX_node, E, T. auto.
  - cbn [ValueStore_Model.get lookup]. destruct (f path) as [d|]; auto. destruct (tr d); eauto.
  - apply regular_layered in R as [N R]. induction l as [|v l IHl]; [congruence|]. inversion IH as [|? ? I1 I2]; subst. inversion R as [|? ? R1 R2]; subst.
    specialize (I1 path R1). destruct l as [|v' l].
    + rewrite get_layered1, lookup_layered. destruct (lookup w v path); auto.
    + rewrite get_layered, lookup_layered, (hasKey_lookup w v path R1). destruct (lookup w v path) as [d|]; [exact I1|].
      apply IHl; auto. discriminate.
  - cbn [ValueStore_Model.get lookup regular] in *. destruct m; cbn [applyPrefix].
    + destruct R as [_ R]. apply IH; auto.
    + rewrite strip_drop. destruct (drop_prefix p path) as [r|]; auto. apply IH; auto.
  - rewrite get_verbose. cbn [lookup regular] in *. apply IH; auto.
Qed.
Lemma regular_head_layers v l path : regular junk (Layered (v :: l)) path -> regular junk v path. Proof. intros [_ [R _]]. auto. Qed.
Lemma get_default w s d : forall path, regular junk s path -> takes_default s path ->
  (forall x, lookup w s path = Some x -> tr x <> None) ->
  match lookup w s path with
  | Some x => exists h v, tr x = Some v /\ get w s path (Some d) = (w, VOk h) /\ handle_get tr w h = VOk v
  | None => get w s path (Some d) = (w, VOk (HConst d))
  end.
Proof.
  induction s as [loc ns|f|l IH|m p v IH|v IH] using store_ind'; intros path R TD P.
  - cbn [ValueStore_Model.get lookup] in *. unfold getFromPt, getX_default, imp_get_default, get_optional. unfold getX, imp_get in *. cbn [parse_string] in *.
    destruct (walk (hget w loc) _) as [x|]; [|reflexivity]. specialize (P (pdata x) eq_refl). destruct (tr (pdata x)) as [v|] eqn:T; [|congruence].
    exists (HConst v), v. auto.
  - cbn [ValueStore_Model.get lookup] in *. destruct (f path) as [x|]; [|reflexivity]. specialize (P x eq_refl). destruct (tr x) as [v|] eqn:T; [|congruence].
    exists (HConst v), v. auto.
  - apply regular_layered in R as [N R]. induction l as [|v l IHl]; [congruence|]. inversion IH as [|? ? I1 I2]; subst. inversion R as [|? ? R1 R2]; subst.
    destruct l as [|v' l].
    + rewrite get_layered1. rewrite lookup_layered in *. specialize (I1 path R1 TD). destruct (lookup w v path) as [x|]; apply I1; auto.
    + rewrite get_layered. rewrite lookup_layered in *. rewrite (hasKey_lookup w v path R1). pose proof (get_none w v path R1) as GN.
      destruct (lookup w v path) as [x|] eqn:L; [|apply IHl; auto; discriminate].
      specialize (P x eq_refl). destruct (tr x) as [y|] eqn:T; [|congruence]. destruct GN as (h & G1 & G2). exists h, y. auto.
  - cbn [ValueStore_Model.get lookup regular takes_default] in *. destruct m; cbn [applyPrefix].
    + destruct R as [_ R]. apply IH; auto.
    + destruct TD as (r & -> & TD). rewrite strip_drop in *. pose proof (proj2 (drop_prefix_spec p (p ++ r) r) eq_refl) as DP. rewrite DP in *. apply IH; auto.
  - rewrite get_verbose. cbn [lookup regular takes_default] in *. apply IH; auto.
Qed.
End T.

(** ** verbose wrappers *)
Lemma quiet_hasKey w s : forall path, hasKey w (quiet s) path = hasKey w s path.
Proof.
  induction s as [loc ns|f|l IH|m p v IH|v IH] using store_ind'; intros path; auto.
  - cbn [quiet]. rewrite !hasKey_layered. induction l as [|v l IHl]; auto. inversion IH as [|? ? I1 I2]; subst. cbn [map existsb]. rewrite I1, IHl; auto.
  - cbn [quiet ValueStore_Model.hasKey]. destruct (applyPrefix_ptr junk m p path) as [q b]. rewrite IH. auto.
  - cbn [quiet ValueStore_Model.hasKey]. auto.
Qed.
Lemma quiet_get {A} (tr : bytes -> option A) V0 w s : forall path def,
  get junk tr V0 w (quiet s) path def = get junk tr V0 w s path def.
Proof.
  induction s as [loc ns|f|l IH|m p v IH|v IH] using store_ind'; intros path def; auto.
  - cbn [quiet]. induction l as [|v l IHl]; auto. inversion IH as [|? ? I1 I2]; subst. destruct l as [|v' l].
    + cbn [map]. rewrite !get_layered1. apply I1; auto.
    + cbn [map] in *. rewrite !get_layered, quiet_hasKey, I1, IHl; auto.
  - cbn [quiet get valid] in *. destruct (applyPrefix m p path); auto.
  - cbn [quiet valid] in *. rewrite get_verbose; auto.
Qed.
Lemma quiet_supported s : isChildSupported (quiet s) = isChildSupported s.
Proof.
  induction s as [loc ns|f|l IH|m p v IH|v IH] using store_ind'; auto.
  - cbn [quiet isChildSupported]. induction l as [|v l IHl]; auto. inversion IH as [|? ? I1 I2]; subst. cbn [map]. rewrite I1. destruct (isChildSupported v); auto.
  - destruct m; auto.
Qed.

Definition map_res {X Y} (f : X -> Y) (r : heap * vres X) : heap * vres Y :=
  (fst r, match snd r with VOk a => VOk (f a) | VThrow => VThrow | VUndef => VUndef end).
Definition layer_children (key : bytes) := fix go (w : heap) (l : list store) : heap * vres (list store) :=
           match l with
           | [] => (w, VOk [])
           | v :: r => match getChild junk w v key with
                       | (w1, VOk c) => match go w1 r with
                                        | (w2, VOk cs) => (w2, VOk (c :: cs))
                                        | x => x
                                        end
                       | (w1, VThrow) => (w1, VThrow)
                       | (w1, VUndef) => (w1, VUndef)
                       end
           end.
Lemma getChild_layered w l key : getChild junk w (Layered l) key =
  (let '(w', r) := layer_children key w l in (w', match r with VOk [c] => VOk c | VOk cs => VOk (Layered cs) | VThrow => VThrow | VUndef => VUndef end)).
Proof. reflexivity. Qed.
Lemma quiet_getChild s : forall w key, getChild junk w (quiet s) key = map_res quiet (getChild junk w s key).
Proof.
  induction s as [loc ns|f|l IH|m p v IH|v IH] using store_ind'; intros w key; auto.
  - cbn [quiet]. rewrite !getChild_layered.
    assert (L : layer_children key w (map quiet l) = map_res (map quiet) (layer_children key w l)).
    { revert w. induction l as [|v l IHl]; intros w; auto. inversion IH as [|? ? I1 I2]; subst. cbn [map layer_children]. rewrite I1.
      destruct (getChild junk w v key) as [w1 [c| |]]; cbn [map_res fst snd]; auto. fold (layer_children key). rewrite IHl by auto.
      destruct (layer_children key w1 l) as [w2 [cs| |]]; cbn [map_res fst snd]; auto. }
    rewrite L. destruct (layer_children key w l) as [w1 [cs| |]]; cbn [map_res fst snd]; auto.
    destruct cs as [|c [|c' cs]]; auto.
  - cbn [quiet getChild]. destruct (applyPrefix_ptr junk m p key) as [q b]. destruct b; [|reflexivity]. destruct m; auto.
    destruct (bytes_eqb q [] || bytes_eqb q [SLASH]); auto.
  - cbn [quiet getChild]. rewrite IH. destruct (getChild junk w v key) as [w1 [c| |]]; auto.
Qed.

(** ** children *)
Lemma same_result_refl {A} (tr : bytes -> option A) pr r : same_result tr pr r r.
Proof. split; auto. destruct (snd r); auto. split; auto. Qed.
Lemma same_result_trans {A} (tr : bytes -> option A) pr r1 r2 r3 : same_result tr pr r1 r2 -> same_result tr pr r2 r3 -> same_result tr pr r1 r3.
Proof.
  intros [E1 H1] [E2 H2]. split; [congruence|]. destruct (snd r1), (snd r2), (snd r3); try tauto.
  destruct H1 as [U1 H1], H2 as [U2 H2]. split; [congruence|]. intros w. destruct (H1 w) as [G1 X1], (H2 w) as [G2 X2]. split; [congruence|].
  intros nd v. rewrite X1. auto.
Qed.
Lemma same_reads_refl s k : same_reads junk s k s k. Proof. intros w. split; auto. intros. apply same_result_refl. Qed.
Lemma same_result_sym {A} (tr : bytes -> option A) pr r1 r2 : same_result tr pr r1 r2 -> same_result tr pr r2 r1.
Proof.
  intros [E1 H1]. split; [congruence|]. destruct (snd r1), (snd r2); try tauto. destruct H1 as [U1 H1]. split; [congruence|].
  intros w. destruct (H1 w) as [G1 X1]. split; [congruence|]. intros. symmetry. auto.
Qed.
Lemma same_reads_trans s1 k1 s2 k2 s3 k3 : same_reads junk s1 k1 s2 k2 -> same_reads junk s2 k2 s3 k3 -> same_reads junk s1 k1 s3 k3.
Proof. intros H1 H2 w. destruct (H1 w) as [A1 B1], (H2 w) as [A2 B2]. split; [congruence|]. intros. eapply same_result_trans; eauto. Qed.
Lemma same_reads_sym s1 k1 s2 k2 : same_reads junk s1 k1 s2 k2 -> same_reads junk s2 k2 s1 k1.
Proof. intros H1 w. destruct (H1 w) as [A1 B1]. split; [congruence|]. intros. apply same_result_sym; auto. Qed.

Definition rel_key (k : bytes) : Prop := forall r, k <> SLASH :: r.
Lemma view_child_ok ns a : is_view ns -> is_view (view_child ns a).
Proof. intros V. unfold view_child. destruct a as [|c a]; [apply ensure_view|]. destruct (N.eqb c SLASH); apply ensure_view. Qed.
Lemma view_child_qualified ns a k : is_view ns -> a <> [] -> ends_with SLASH a = false -> rel_key k ->
  buildQualifiedKeyName (view_child ns a) k = buildQualifiedKeyName ns (a ++ SLASH :: k).
Proof.
  intros V N E K.
  assert (VC : view_child ns a = (match a with c :: _ => if N.eqb c SLASH then a else ns ++ a | [] => ns ++ a end) ++ [SLASH]).
  { unfold view_child. destruct a as [|c a]; [congruence|]. destruct (is_view_head ns V) as (r & En). destruct (N.eqb c SLASH) eqn:Ec.
    - rewrite ensure_eq, E. apply N.eqb_eq in Ec. subst c. reflexivity.
    - rewrite ensure_eq, ends_with_app by discriminate. rewrite E. subst ns. reflexivity. }
  unfold buildQualifiedKeyName at 1. 
  assert (Q : match k with [] => view_child ns a ++ k | c :: _ => if N.eqb c SLASH then k else view_child ns a ++ k end = view_child ns a ++ k).
  { destruct k as [|c k]; auto. destruct (N.eqb c SLASH) eqn:Ec; auto. apply N.eqb_eq in Ec. subst. exfalso. eapply K; eauto. }
  rewrite Q, VC. unfold buildQualifiedKeyName. destruct a as [|c a]; [congruence|]. cbn [app]. 
  destruct (N.eqb c SLASH) eqn:Ec; rewrite <- !app_assoc; reflexivity.
Qed.
Lemma pt_same loc ns1 k1 ns2 k2 : buildQualifiedKeyName ns1 k1 = buildQualifiedKeyName ns2 k2 -> same_reads junk (PT loc ns1) k1 (PT loc ns2) k2.
Proof.
  intros E w. cbn [hasKey]. split; [unfold doesKeyExist; rewrite E; auto|]. intros A tr pr V0 def. cbn [get]. unfold getFromPt, getX_default, getX. rewrite E.
  destruct def as [d|]; [apply same_result_refl|]. destruct (imp_get tr (hget w loc) (buildQualifiedKeyName ns2 k2)) eqn:G; try apply same_result_refl.
  split; auto. cbn [snd]. split; auto. intros w'. cbn [handle_get handle_update]. unfold getX, setX. rewrite E. auto.
Qed.

Lemma plain_layers l : plain junk (Layered l) -> Forall (plain junk) l.
Proof. cbn [plain]. induction l as [|v l IH]; constructor; intuition. Qed.
Lemma plain_of_layers l : Forall (plain junk) l -> plain junk (Layered l).
Proof. cbn [plain]. induction 1; cbn; auto. Qed.
Lemma supported_layers l : isChildSupported (Layered l) = true -> Forall (fun v => isChildSupported v = true) l.
Proof. cbn [isChildSupported]. induction l as [|v l IH]; constructor; destruct (isChildSupported v); auto; discriminate. Qed.
(** a layered store of children behaves as the layered store at the longer key *)
Lemma layered_same l cs : forall k1 k2, Forall2 (fun c v => same_reads junk c k1 v k2) cs l -> same_reads junk (Layered cs) k1 (Layered l) k2.
Proof.
  intros k1 k2 F w. split.
  - rewrite !hasKey_layered. induction F as [|c v cs l H F IH]; auto. cbn [existsb]. rewrite IH. destruct (H w) as [-> _]. auto.
  - intros A tr pr V0 def. induction F as [|c v cs l H F IH]; [apply same_result_refl|]. destruct F as [|c' v' cs l H' F].
    + rewrite !get_layered1. apply (H w).
    + rewrite !get_layered. destruct (H w) as [-> HG]. destruct (hasKey w v k2); auto.
Qed.
Lemma child_same s : forall w a, plain junk s -> isChildSupported s = true -> a <> [] -> ends_with SLASH a = false ->
  exists s', getChild junk w s a = (w, VOk s') /\ plain junk s' /\ (valid w s -> valid w s') /\
    forall k, rel_key k -> same_reads junk s' k s (a ++ SLASH :: k).
Proof.
  induction s as [loc ns|f|l IH|m p v IH|v IH] using store_ind'; intros w a P SP N E.
  - exists (PT loc (view_child ns a)). split; auto. split; [apply view_child_ok; auto|]. split; auto. intros k K. apply pt_same. apply view_child_qualified; auto.
  - discriminate.
  - rewrite getChild_layered. apply plain_layers in P. apply supported_layers in SP.
    assert (L : exists cs, layer_children a w l = (w, VOk cs) /\ Forall (plain junk) cs /\ (valid w (Layered l) -> Forall (valid w) cs) /\
      Forall2 (fun c v => forall k, rel_key k -> same_reads junk c k v (a ++ SLASH :: k)) cs l).
    { clear - IH P SP N E. induction l as [|v l IHl]; [exists []; repeat split; constructor|].
      inversion IH as [|? ? I1 I2]; inversion P as [|? ? P1 P2]; inversion SP as [|? ? S1 S2]; subst.
      destruct (I1 w a P1 S1 N E) as (c & G & Pc & Vc & Sc). destruct (IHl I2 P2 S2) as (cs & Gs & Pcs & Vcs & Fcs).
      cbn [layer_children]. rewrite G. fold (layer_children a). rewrite Gs. exists (c :: cs). repeat split; auto.
      intros [V1 V2]. constructor; auto. }
    destruct L as (cs & -> & Pcs & Vcs & Fcs).
    assert (SR : forall k, rel_key k -> same_reads junk (Layered cs) k (Layered l) (a ++ SLASH :: k)).
    { intros k K. apply layered_same. clear - Fcs K. induction Fcs; constructor; auto. }
    assert (VV : valid w (Layered l) -> valid w (Layered cs)).
    { intros V. specialize (Vcs V). clear - Vcs. cbn [valid]. induction Vcs; cbn; auto. }
    destruct cs as [|c [|c' cs]].
    + exists (Layered []). split; [reflexivity|]. split; [apply plain_of_layers; auto|]. split; auto.
    + exists c. split; [reflexivity|]. inversion Pcs; subst. split; auto. split; [intros V; destruct (VV V); auto|].
      intros k K. intros w0. destruct (SR k K w0) as [X Y]. split; [rewrite <- X; rewrite hasKey_layered; cbn [existsb]; rewrite orb_false_r; auto|].
      intros A0 tr0 pr0 V00 def0. specialize (Y A0 tr0 pr0 V00 def0). rewrite get_layered1 in Y. exact Y.
    + exists (Layered (c :: c' :: cs)). split; [reflexivity|]. split; [apply plain_of_layers; auto|]. split; auto.
  - destruct m; [|destruct P]. cbn [getChild applyPrefix_ptr plain] in *. rewrite P. exists (mkPrefixed ADD (p ++ a) v). split; auto. split; [reflexivity|]. split; auto.
    intros k K w'. unfold mkPrefixed. cbn [hasKey get applyPrefix_ptr applyPrefix].
    replace ((p ++ a) ++ [SLASH]) with (p ++ a ++ [SLASH]) by (rewrite app_assoc; auto).
    replace ((p ++ a ++ [SLASH]) ++ k) with (p ++ a ++ SLASH :: k) by (rewrite <- !app_assoc; auto). split; auto. intros. apply same_result_refl.
  - cbn [plain isChildSupported getChild] in *. destruct (IH w a P SP N E) as (c & -> & Pc & Vc & Sc). exists (Verbose c). split; auto. split; auto. split; auto.
    intros k K w'. destruct (Sc k K w') as [X Y]. cbn [ValueStore_Model.hasKey]. split; auto. intros. rewrite !get_verbose. apply Y.
Qed.
End S.
