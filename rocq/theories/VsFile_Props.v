(** C127: value stores in files; isEmpty. *)
From Verif Require Import Bytes Strings_Model PTree_Model PTree_Spec PTree_Proofs InfoFile_Model InfoFile_Props IniFile_Model IniFile_Props
  JsonFile_Model JsonFile_Props XmlFile_Model XmlFile_Props PTreeFile_Model PTreeFile_Props ValueStore_Model VsFile_Model.
Open Scope nat_scope.

(** ** Specification *)
(** Two stores answer every question of a reader alike. *)
Definition same_answers (w1 : heap) (s1 : store) (w2 : heap) (s2 : store) : Prop :=
  (forall junk key, hasKey junk w1 s1 key = hasKey junk w2 s2 key) /\
  (forall junk A (tr : bytes -> option A) V0 key def x,
     (exists h, snd (ValueStore_Model.get junk tr V0 w1 s1 key def) = VOk h /\ handle_get tr w1 h = VOk x) <->
     (exists h, snd (ValueStore_Model.get junk tr V0 w2 s2 key def) = VOk h /\ handle_get tr w2 h = VOk x)).

Lemma get_optional_ext A (tr : bytes -> option A) t t' c k : (forall p, value_at t p = value_at t' p) -> get_optional tr t c k = get_optional tr t' c k.
Proof. intros H. specialize (H (components c k)). unfold value_at in H. unfold get_optional. destruct (walk t (components c k)), (walk t' (components c k)); cbn in *; congruence. Qed.
Lemma answers_of_values w1 w2 l1 l2 ns : (forall p, value_at (hget w1 l1) p = value_at (hget w2 l2) p) -> same_answers w1 (PT l1 ns) w2 (PT l2 ns).
Proof.
  intros H. split.
  - intros junk key. cbn [hasKey]. unfold doesKeyExist, imp_doesKeyExist. now rewrite (get_optional_ext _ parse_string _ (hget w2 l2)).
  - intros junk A tr V0 key def x. cbn [ValueStore_Model.get]. unfold getFromPt.
    assert (G : getX tr (hget w1 l1) ns key = getX tr (hget w2 l2) ns key).
    { unfold getX, imp_get. specialize (H (components SLASH (skipn 1 (buildQualifiedKeyName ns key)))). unfold value_at in H. destruct (walk (hget w1 l1) _), (walk (hget w2 l2) _); cbn in *; try discriminate H; [injection H as H; now rewrite H | reflexivity]. }
    destruct def as [d|].
    + unfold getX_default, imp_get_default. rewrite (get_optional_ext _ tr _ (hget w2 l2)) by auto. cbn [snd].
      split; intros (h & E & X); injection E as <-; eexists; (split; [reflexivity | exact X]).
    + rewrite G. destruct (getX tr (hget w2 l2) ns key) as [a| | | | | |] eqn:E; cbn [snd]; (split; intros (h & X & Y); [|]); try discriminate X; injection X as <-; eexists; (split; [reflexivity|]); cbn [handle_get] in *; congruence.
Qed.
Lemma walk_ini t (old : ptree) : ini_tree t -> forall p, value_at (restored INI t) p = value_at t p.
Proof.
  intros I p. destruct (ini_roundtrip t old I) as (file & _ & L & W). specialize (W p). rewrite L in W. exact W.
Qed.
(** saveTo then fromFile: a store whose view is the whole tree comes back with the same answers, for every format that can hold
    its tree; nothing else changes. *)
Theorem store_file_roundtrip : forall h ic fs w loc path f, getFormat path = Some f -> storable h ic f (hget w loc) ->
  exists fs' w' s', saveTo h fs w (PT loc (view_root [])) path = Done fs' /\ (forall q, q <> path -> fs' q = fs q) /\
    fromFile h ic fs' w path = Some (w', s') /\ same_answers w' s' w (PT loc (view_root [])) /\ (forall l, l < length w -> hget w' l = hget w l).
Proof.
  intros h ic fs w loc path f F S. destruct (save_load h ic fs path f (hget w loc) pempty F S) as (fs' & SV & Q & L).
  unfold saveTo, fromFile. cbn [bpt]. rewrite SV. exists fs'. rewrite L. eexists. eexists. split; [reflexivity|]. split; [exact Q|]. split; [reflexivity|]. split.
  - apply answers_of_values. intros p. unfold hget at 1. rewrite app_nth2, Nat.sub_diag by lia. cbn [nth]. destruct f; auto. now apply (walk_ini (hget w loc) pempty).
  - intros l Ll. unfold hget. now rewrite app_nth1.
Qed.
(** canSave says exactly whether saveTo refuses; a refused or failed fromFile leaves everything alone. *)
Theorem canSave_exact : forall h fs w s path, canSave s = false <-> saveTo h fs w s path = Refused.
Proof. intros h fs w s path. unfold canSave, saveTo. destruct (bpt s) as [loc|]; [|tauto]. destruct (save h fs path (hget w loc)); split; discriminate. Qed.
(** Saving succeeds and fails as saving the tree does, and a store comes from a file exactly if the tree can be loaded; it shows
    the whole tree. *)
Theorem store_save_exact : forall h fs w loc view path fs',
  (saveTo h fs w (PT loc view) path = Done fs' <-> save h fs path (hget w loc) = Fine fs') /\
  (saveTo h fs w (PT loc view) path = Failed fs' <-> exists y, save h fs path (hget w loc) = Threw y fs').
Proof.
  intros h fs w loc view path fs'. unfold saveTo. cbn [bpt]. destruct (save_exact h fs path (hget w loc)) as (_ & _ & NE).
  destruct (save h fs path (hget w loc)) as [a|y a|].
  - split; split; try congruence. intros (z & H). discriminate.
  - split; split; try congruence; [intros H; injection H as ->; eauto | intros (z & H); congruence].
  - exfalso. exact (NE (0%N :: path) ltac:(intros H; apply (f_equal (@length N)) in H; cbn in H; lia)).
Qed.
Theorem store_from_file_exact : forall h ic fs w path,
  (forall w' s, fromFile h ic fs w path = Some (w', s) -> exists t, load h ic fs path pempty = Fine t /\ w' = w ++ [t] /\ s = PT (length w) (view_root [])) /\
  (fromFile h ic fs w path = None <-> forall t, load h ic fs path pempty <> Fine t).
Proof.
  intros h ic fs w path. unfold fromFile, halloc. destruct (load h ic fs path pempty) as [t|y t|]; (split; [intros w' s H; try discriminate H; injection H as <- <-; eauto|]); split; try congruence.
  intros H. exfalso. now apply (H t).
Qed.
(** It is false of every wrapper, even around a store that can be saved. *)
Theorem canSave_wrapped_refuted : forall s l m p, canSave (PT 0 (view_root [])) = true /\ canSave (Verbose s) = false /\ canSave (Layered l) = false /\ canSave (Prefixed m p s) = false.
Proof. repeat split. Qed.
(** Saving a child store writes the whole tree: what is loaded answers for the parent. *)
Theorem save_child_refuted : exists w c fs fs' w' s', (forall junk, snd (getChild junk w (PT 0 (view_root [])) (str "a")) = VOk c) /\
  hasKey true w c (str "b") = true /\ saveTo false fs w c (str "f.json") = Done fs' /\ fromFile false true fs' w (str "f.json") = Some (w', s') /\
  hasKey true w' s' (str "b") = false /\ hasKey true w' s' (str "a/b") = true.
Proof.
  exists [Node [] [(str "a", Node [] [(str "b", Node (str "1") [])])]]. eexists. exists (fun _ => None). eexists. eexists. eexists.
  split; [intros junk; reflexivity|]. split; [vm_compute; reflexivity|]. split; [reflexivity|]. split; [vm_compute; reflexivity|]. split; vm_compute; reflexivity.
Qed.
(** isEmpty of a store made from a whole tree: true exactly if it has no children; then no key but the root exists. *)
Lemma alloc_nil w l w' cs : alloc_all w l = (w', cs) -> (cs = [] <-> l = []).
Proof. destruct l as [|[k t] r]; cbn; [intros [= <- <-]; tauto|]. destruct (alloc_all (w ++ [t]) r) as [w2 cs2]. intros [= <- <-]. split; discriminate. Qed.
Theorem isEmpty_children : forall oob w loc w' cs, getChildren_vs true oob w (PT loc (view_root [])) = Some (w', VOk cs) ->
  (ValueStore_Model.isEmpty w (PT loc (view_root [])) = true <-> cs = []).
Proof.
  intros oob w loc w' cs H. cbn [getChildren_vs ValueStore_Model.isEmpty] in *. assert (G : getChildren oob (hget w loc) (view_root []) = if N.eqb oob SLASH then Undefined else Ok (pkids (hget w loc))) by reflexivity. rewrite G in H. destruct (N.eqb oob SLASH); [discriminate H|].
  destruct (alloc_all w (pkids (hget w loc))) as [w2 cs2] eqn:A. injection H as <- <-. rewrite (alloc_nil _ _ _ _ A). destruct (pkids (hget w loc)); split; congruence.
Qed.
Example store_file_case : exists f, getFormat (str "cfg/x.xml") = Some f /\ storable false true f (hget [ex_xml] 0).
Proof. exists XML. split; [reflexivity | exact (ex_xml_ok false false)]. Qed.
(** A child store without any key is not empty while the tree has other children. *)
Theorem isEmpty_child_refuted : exists w c, (forall junk, snd (getChild junk w (PT 0 (view_root [])) (str "x")) = VOk c) /\
  ValueStore_Model.isEmpty w c = false /\ (forall oob, getChildren_vs true oob w c = Some (w, VThrow)).
Proof.
  exists [Node [] [(str "a", Node (str "1") [])]]. eexists. split; [intros junk; reflexivity|]. split; [reflexivity|]. intros oob. vm_compute. reflexivity.
Qed.
