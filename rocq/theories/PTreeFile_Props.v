(** C123: loading and saving property trees by file name. *)
From Verif Require Import Bytes Strings_Model PTree_Model InfoFile_Model InfoFile_Props IniFile_Model IniFile_Props JsonFile_Model JsonFile_Props XmlFile_Model XmlFile_Props PTreeFile_Model.
Open Scope nat_scope.

Definition ending (f : format) : bytes := match f with XML => str ".xml" | INI => str ".ini" | JSON => str ".json" | INFO => str ".info" end.

Lemma after_last_none c s : after_last c s = None <-> ~ In c s.
Proof.
  induction s as [|x r IH]; cbn; [tauto|]. destruct (after_last c r) as [t|].
  - split; [discriminate|]. intros H. exfalso. apply H. right. destruct (in_dec N.eq_dec c r) as [I|I]; auto. apply IH in I. discriminate.
  - destruct (N.eqb_spec x c) as [->|NE]; [split; [discriminate | tauto]|]. split; [intros _ [X|X]; [congruence | now apply (proj1 IH eq_refl)] | reflexivity].
Qed.
Lemma after_last_app c q t : ~ In c t -> after_last c (q ++ c :: t) = Some t.
Proof.
  intros H. induction q as [|x q IH]; cbn [app after_last]; [|now rewrite IH]. rewrite (proj2 (after_last_none c t) H). now rewrite N.eqb_refl.
Qed.
Lemma after_last_some c s t : after_last c s = Some t -> exists q, s = q ++ c :: t /\ ~ In c t.
Proof.
  revert t. induction s as [|x r IH]; cbn; intros t H; [discriminate|]. destruct (after_last c r) as [t'|] eqn:E.
  - injection H as <-. destruct (IH t' eq_refl) as (q & -> & N). exists (x :: q). auto.
  - destruct (N.eqb_spec x c) as [->|]; [|discriminate]. injection H as <-. exists []. split; auto. now apply after_last_none.
Qed.
Lemma after_last_longer c q t : ~ In c t -> exists u, (after_last c (q ++ t) = None /\ ~ In c q) \/ (after_last c (q ++ t) = Some (u ++ t)).
Proof.
  intros H. destruct (after_last c q) as [u|] eqn:E.
  - apply after_last_some in E as (a & -> & N). exists u. right. rewrite <- app_assoc. cbn [app]. apply after_last_app. intros I. apply in_app_or in I as [I|I]; auto.
  - exists []. left. apply after_last_none in E. split; auto. apply after_last_none. intros I. apply in_app_or in I as [I|I]; auto.
Qed.
Lemma filename_app q e : e <> [] -> ~ In SLASH e -> exists u, filename (q ++ e) = u ++ e.
Proof.
  intros NE H. unfold filename. destruct (after_last_longer SLASH q e H) as (u & [[-> _]|E]); [eauto|]. rewrite E.
  destruct (u ++ e) eqn:X; [apply app_eq_nil in X as [_ X]; contradiction|]. rewrite <- X. eauto.
Qed.
Lemma extension_app q e : ~ In SLASH e -> ~ In DOT e -> e <> [] -> extension (q ++ DOT :: e) = e.
Proof.
  intros S D NE. unfold extension. destruct (filename_app q (DOT :: e)) as (u & E); [discriminate | intros [X|X]; [discriminate X | auto]|]. rewrite E.
  assert (N1 : bytes_eqb (u ++ DOT :: e) [DOT] = false).
  { apply Bool.not_true_is_false. intros X. apply bytes_eqb_eq in X. destruct u as [|x u]; [injection X as X; contradiction|]. injection X as _ X. destruct u; discriminate X. }
  assert (N2 : bytes_eqb (u ++ DOT :: e) [DOT; DOT] = false).
  { apply Bool.not_true_is_false. intros X. apply bytes_eqb_eq in X. destruct u as [|x u]; [injection X as X; subst; apply D; now left|].
    injection X as _ X. destruct u as [|y u]; [injection X as X; contradiction|]. injection X as _ X. destruct u; discriminate X. }
  rewrite N1, N2. cbn [orb]. now rewrite after_last_app.
Qed.
Lemma filename_tail p n : filename p = n -> n <> [DOT] -> exists q, p = q ++ n.
Proof.
  unfold filename. destruct (after_last SLASH p) as [t|] eqn:E; [|intros <- _; exists []; reflexivity].
  apply after_last_some in E as (a & -> & _). destruct t as [|c t]; [intros <- X; congruence|]. intros <- _. exists (a ++ [SLASH]). now rewrite <- app_assoc.
Qed.
Lemma extension_inv p e : extension p = e -> e <> [] -> exists q, p = q ++ DOT :: e.
Proof.
  unfold extension. intros H NE. destruct (bytes_eqb (filename p) [DOT]) eqn:E1; [cbn in H; congruence|].
  destruct (bytes_eqb (filename p) [DOT; DOT]); [cbn in H; congruence|]. cbn [orb] in H.
  destruct (after_last DOT (filename p)) as [t|] eqn:E; [|congruence]. subst t. apply after_last_some in E as (a & E & _).
  destruct (filename_tail p _ eq_refl) as (q & Q). { intros X. rewrite X in E1. now rewrite bytes_eqb_refl in E1. }
  rewrite E in Q. exists (q ++ a). now rewrite <- app_assoc.
Qed.
(** The format is chosen by the end of the name alone; case matters. *)
Theorem format_by_ending : forall p f, getFormat p = Some f <-> exists q, p = q ++ ending f.
Proof.
  intros p f. split.
  - unfold getFormat. intros H.
    destruct (bytes_eqb (extension p) (str "xml")) eqn:E1; [injection H as <-; apply bytes_eqb_eq in E1; apply (extension_inv p); [exact E1 | discriminate]|].
    destruct (bytes_eqb (extension p) (str "ini")) eqn:E2; [injection H as <-; apply bytes_eqb_eq in E2; apply (extension_inv p); [exact E2 | discriminate]|].
    destruct (bytes_eqb (extension p) (str "json")) eqn:E3; [injection H as <-; apply bytes_eqb_eq in E3; apply (extension_inv p); [exact E3 | discriminate]|].
    destruct (bytes_eqb (extension p) (str "info")) eqn:E4; [injection H as <-; apply bytes_eqb_eq in E4; apply (extension_inv p); [exact E4 | discriminate]|].
    discriminate.
  - intros (q & ->). unfold getFormat. destruct f; cbn [ending].
    + change (str ".xml") with (DOT :: str "xml"). rewrite extension_app; [reflexivity|..]; try discriminate; cbn; intuition discriminate.
    + change (str ".ini") with (DOT :: str "ini"). rewrite extension_app; [reflexivity|..]; try discriminate; cbn; intuition discriminate.
    + change (str ".json") with (DOT :: str "json"). rewrite extension_app; [reflexivity|..]; try discriminate; cbn; intuition discriminate.
    + change (str ".info") with (DOT :: str "info"). rewrite extension_app; [reflexivity|..]; try discriminate; cbn; intuition discriminate.
Qed.
(** Any other name makes load and save throw and changes nothing; a failing load changes nothing. *)
Theorem unknown_format : forall h ic fs p t, (forall f q, p <> q ++ ending f) ->
  load h ic fs p t = Threw UnknownFormat t /\ save h fs p t = Threw UnknownFormat fs.
Proof.
  intros h ic fs p t H. unfold load, save. destruct (getFormat p) as [f|] eqn:E; auto. apply format_by_ending in E as (q & E). exfalso. now apply (H f q).
Qed.
Lemma of_res_threw x w t : of_res x = Threw w t -> t = fst x.
Proof. destruct x as [t0 []]; cbn; congruence. Qed.
Theorem failed_load_keeps_tree : forall h ic fs p t w t', load h ic fs p t = Threw w t' -> t' = t.
Proof.
  intros h ic fs p t w t'. unfold load. destruct (getFormat p) as [f|]; [|congruence]. destruct (fs p) as [c|]; [|congruence]. destruct f.
  - unfold loadXml. destruct (read_xml h ic c); cbn; congruence.
  - unfold loadIni. destruct (ini_lines _ _); cbn; congruence.
  - unfold loadJson. destruct (p_value _ _) as [[a b]|]; [destruct (jskip b)|]; cbn; congruence.
  - unfold loadInfo. destruct (read_info_file c); cbn; congruence.
Qed.
(** What can be stored in a format, and what comes back. *)
Definition storable (h ic : bool) (f : format) (t : ptree) : Prop :=
  match f with
  | XML => xml_tree h (negb ic) t
  | INI => ini_tree t
  | JSON => pdata t = [] /\ everywhere not_mixed t /\ everywhere utf8_node t
  | INFO => pdata t = [] /\ everywhere no_hash t /\ everywhere no_clash t
  end.
Definition restored (f : format) (t : ptree) : ptree :=
  match f with INI => Node [] (leaves (pkids t) ++ sections (pkids t)) | _ => t end.
(** save(name) followed by load(name) with the same settings: no other file changes, the tree comes back (INI: values
    before sections). *)
Theorem save_load : forall h ic fs p f t old, getFormat p = Some f -> storable h ic f t ->
  exists fs', save h fs p t = Fine fs' /\ (forall q, q <> p -> fs' q = fs q) /\ load h ic fs' p old = Fine (restored f t).
Proof.
  intros h ic fs p f t old G S.
  assert (W : forall c q, q <> p -> fs_write fs p c q = fs q).
  { intros c q N. unfold fs_write. destruct (bytes_eqb p q) eqn:E; auto. apply bytes_eqb_eq in E. congruence. }
  assert (R : forall c, fs_write fs p c p = Some c) by (intros c; unfold fs_write; now rewrite bytes_eqb_refl).
  unfold save, load. rewrite G. destruct f; cbn [storable restored] in *.
  - eexists. split; [reflexivity|]. split; auto. rewrite R, xml_roundtrip by auto. reflexivity.
  - destruct (ini_roundtrip t old S) as (file & E & L & _). rewrite E. eexists. split; [reflexivity|]. split; auto. rewrite R, L. reflexivity.
  - destruct S as (A & B & C). destruct (json_roundtrip t old A B C) as (file & E & L). rewrite E. eexists. split; [reflexivity|]. split; auto. rewrite R, L. reflexivity.
  - destruct S as (A & B & C). eexists. split; [reflexivity|]. split; auto. rewrite R, info_roundtrip_partial by auto. destruct t as [d ks]. cbn in *. subst d. reflexivity.
Qed.
(** A save that fails has already destroyed the file that was there. *)
Theorem failed_save_keeps_file_refuted : exists fs p t c, fs p = Some c /\ c <> [] /\
  forall h, exists fs', save h fs p t = Threw BadTree fs' /\ fs' p = Some [].
Proof.
  exists (fun _ => Some (str "{}")), (str "a.json"), (Node [] [(str "a", Node (str "1") [(str "b", pempty)])]), (str "{}").
  split; [reflexivity|]. split; [discriminate|]. intros h. eexists. split; reflexivity.
Qed.
(** load succeeds exactly if the name ends in a known extension, the file exists and the reader of that format accepts it. *)
Definition reads (h ic : bool) (f : format) (old : ptree) (c : bytes) (t : ptree) : Prop :=
  match f with
  | XML => loadXml h ic old c = (t, Ok tt) | INI => loadIni old c = (t, Ok tt) | JSON => loadJson old c = (t, Ok tt) | INFO => loadInfo old c = Some (t, Ok tt)
  end.
Lemma of_res_fine x t : of_res x = Fine t <-> x = (t, Ok tt).
Proof. destruct x as [t0 [[]| | | | | |]]; cbn; split; congruence. Qed.
Theorem load_exact : forall h ic fs p t t', load h ic fs p t = Fine t' <-> exists q f c, p = q ++ ending f /\ fs p = Some c /\ reads h ic f t c t'.
Proof.
  intros h ic fs p t t'. unfold load. split.
  - destruct (getFormat p) as [f|] eqn:G; [|discriminate]. destruct (fs p) as [c|] eqn:F; [|discriminate]. pose proof G as G'. apply format_by_ending in G' as (q & ->). intros H. exists q, f, c.
    split; [reflexivity|]. split; [reflexivity|]. destruct f; cbn [reads]; try now apply of_res_fine. destruct (loadInfo t c) as [x|]; [|discriminate]. apply of_res_fine in H. now subst x.
  - intros (q & f & c & E & F & RD). assert (G : getFormat p = Some f) by (apply format_by_ending; eauto). rewrite G, F. destruct f; cbn [reads] in RD; rewrite RD; reflexivity.
Qed.
Theorem missing_file_throws : forall h ic fs p t, fs p = None -> exists w, load h ic fs p t = Threw w t.
Proof. intros h ic fs p t F. unfold load. rewrite F. destruct (getFormat p); eauto. Qed.
(** save succeeds exactly if the name is known and the format can express the tree. *)
Definition expressible (f : format) (t : ptree) : Prop :=
  match f with
  | XML | INFO => True
  | JSON => pdata t = [] /\ everywhere not_mixed t
  | INI => pdata t = [] /\ NoDup (map fst (pkids t)) /\
      forall k c, In (k, c) (pkids t) -> pkids c <> [] -> pdata c = [] /\ NoDup (map fst (pkids c)) /\ forall k' c', In (k', c') (pkids c) -> pkids c' = []
  end.
Theorem save_exact : forall h fs p t,
  ((exists fs', save h fs p t = Fine fs') <-> exists q f, p = q ++ ending f /\ expressible f t) /\
  ((exists w fs', save h fs p t = Threw w fs') <-> ~ exists q f, p = q ++ ending f /\ expressible f t) /\
  (forall q, q <> p -> match save h fs p t with Fine fs' | Threw _ fs' => fs' q = fs q | Elsewhere => False end).
Proof.
  intros h fs p t.
  assert (W : forall c q, q <> p -> fs_write fs p c q = fs q).
  { intros c q N. unfold fs_write. destruct (bytes_eqb p q) eqn:E; auto. apply bytes_eqb_eq in E. congruence. }
  assert (U : forall f q g, getFormat p = Some f -> p = q ++ ending g -> g = f).
  { intros f q g G E. assert (getFormat p = Some g) by (apply format_by_ending; eauto). congruence. }
  unfold save. destruct (getFormat p) as [f|] eqn:G.
  - pose proof G as G'. apply format_by_ending in G' as (q & E).
    assert (IFF : (exists q f, p = q ++ ending f /\ expressible f t) <-> expressible f t).
    { split; [intros (q' & g & E' & X); now rewrite <- (U f q' g eq_refl E') | intros X; eauto]. }
    rewrite IFF. clear IFF. destruct f; cbn [expressible].
    + split; [split; eauto|]. split; [split; [intros (w & x & H); discriminate | tauto]|]. intros q' N. now apply W.
    + pose proof (ini_saves t) as S. destruct (saveIni t) as [c []]; cbn [snd] in S.
      * split; [split; [intros _; now apply S|eauto]|]. split; [split; [intros (w & x & H); discriminate | intros H; exfalso; apply H; now apply S]|]. intros q' N. now apply W.
      * split; [split; [intros (x & H); discriminate | intros X; apply S in X; discriminate]|]. split; [split; [intros _ X; apply S in X; discriminate | eauto]|]. intros q' N. now apply W.
    + destruct (json_saves t) as [S _]. destruct (saveJson t) as [c []]; cbn [snd] in S.
      * split; [split; [intros _; now apply S|eauto]|]. split; [split; [intros (w & x & H); discriminate | intros H; exfalso; apply H; now apply S]|]. intros q' N. now apply W.
      * split; [split; [intros (x & H); discriminate | intros X; apply S in X; discriminate]|]. split; [split; [intros _ X; apply S in X; discriminate | eauto]|]. intros q' N. now apply W.
    + split; [split; eauto|]. split; [split; [intros (w & x & H); discriminate | tauto]|]. intros q' N. now apply W.
  - assert (NO : ~ exists q f, p = q ++ ending f /\ expressible f t). { intros (q & f & E & _). assert (getFormat p = Some f) by (apply format_by_ending; eauto). congruence. }
    split; [split; [intros (x & H); discriminate | tauto]|]. split; [split; eauto | reflexivity].
Qed.
Example storable_cases : (forall h ic, storable h ic INFO ex_tree /\ storable h ic XML ex_xml) /\ getFormat (str "/cfg/a.b.info") = Some INFO.
Proof. split; [|reflexivity]. intros h ic. split; [|exact (ex_xml_ok h (negb ic))]. destruct ex_tree_ok as [A B]. cbn [storable]. split; [reflexivity|]. split; [exact A | exact B]. Qed.
