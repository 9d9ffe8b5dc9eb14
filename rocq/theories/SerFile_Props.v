(** C103: saving to a file and loading from it. *)
From Verif Require Import KinSer_Props SerFile_Model.
Local Open Scope string_scope.

(** ** specification: the three formats as pairs of functions *)
Definition saver {A} (k : kind) (tag : string) dev (d : disk A) s v p : fout * disk A :=
  match k with Binary => save_bin dev d s v p | Text => save_txt dev d s v p | Xml => save_xml3 dev d s v tag p end.
Definition loader {A} (k : kind) (tag : string) (d : disk A) s old p : fout * list A :=
  match k with Binary => load_bin d s old p | Text => load_txt d s old p | Xml => load_xml3 d s old tag p end.
(** the tag can be written: the characters of a name, or empty *)
Definition good_tag (tag : string) : Prop := valid_tag tag = true.
Lemma good_effective tag : valid_tag (if Nat.eqb (String.length tag) 0 then "object" else tag) = true <-> good_tag tag.
Proof. unfold good_tag. destruct tag as [|c t]; cbn [String.length Nat.eqb]; split; auto. Qed.
Lemma upd_same {A} (d : disk A) p f : upd d p f p = Some f. Proof. unfold upd. rewrite String.eqb_refl. auto. Qed.
Lemma upd_other {A} (d : disk A) p f q : q <> p -> upd d p f q = d q. Proof. unfold upd. intros H. destruct (String.eqb_spec p q); congruence. Qed.
Lemma saver_spec {A} k tag dev (d : disk A) s v p : saver k tag dev d s v p =
  if negb (openable dev p) then (RuntimeE, d)
  else if (match k with Xml => negb (valid_tag (if Nat.eqb (String.length tag) 0 then "object" else tag)) | _ => false end) then (ArchiveE, upd d p (File Xml []))
  else ((if (room dev + buffer dev <? length (ssave s v))%nat then ArchiveE else Fine), upd d p (File k (firstn (room dev) (ssave s v)))).
Proof. destruct k; unfold saver, save_bin, save_txt, save_xml3, write_archive; destruct (openable dev p); cbn [negb]; auto. destruct (valid_tag _); auto. Qed.

(** A save that returns: the object is loaded back in the same format, whatever the tags, exactly if the device took everything; otherwise the load throws *)
Theorem file_roundtrip_exact {A} k tag tag' dev (d d' : disk A) s v old p : sound s -> length v = ssize s -> length old = ssize s -> saver k tag dev d s v p = (Fine, d') ->
  (loader k tag' d' s old p = (Fine, v) <-> (length (ssave s v) <= room dev)%nat) /\
  ((room dev < length (ssave s v))%nat -> exists new, loader k tag' d' s old p = (ArchiveE, new)).
Proof.
  intros S L O. rewrite saver_spec. destruct (openable dev p); cbn [negb]; [|discriminate].
  destruct (match k with Xml => _ | _ => _ end); [discriminate|]. destruct (Nat.ltb_spec (room dev + buffer dev) (length (ssave s v))) as [|B]; [discriminate|]. intros E. injection E as <-.
  assert (LD : loader k tag' (upd d p (File k (firstn (room dev) (ssave s v)))) s old p = match sload s old (firstn (room dev) (ssave s v)) with
                     | (Done, v, _) => (Fine, v) | (VersionE, v, _) => (RuntimeE, v) | (SizeE, v, _) => (EigenE, v) | (StreamE, v, _) => (ArchiveE, v) end).
  { destruct k; unfold loader, load_bin, load_txt, load_xml3, read_archive; rewrite upd_same; reflexivity. }
  rewrite LD. assert (G2 : (room dev < length (ssave s v))%nat -> exists new, match sload s old (firstn (room dev) (ssave s v)) with
                     | (Done, v, _) => (Fine, v) | (VersionE, v, _) => (RuntimeE, v) | (SizeE, v, _) => (EigenE, v) | (StreamE, v, _) => (ArchiveE, v) end = (ArchiveE, new)).
  { intros H. destruct (kinematics_truncated s v old (firstn (room dev) (ssave s v)) (skipn (room dev) (ssave s v)) S L O) as (new & a' & kk & -> & _).
    + rewrite firstn_skipn. auto. + intros F. assert (length (skipn (room dev) (ssave s v)) = 0%nat) by (rewrite F; auto). rewrite skipn_length in *. lia.
    + eauto. }
  split; [|exact G2]. split.
  - intros H. destruct (Nat.le_gt_cases (length (ssave s v)) (room dev)) as [|G]; auto. destruct (G2 G) as (new & F). rewrite F in H. discriminate.
  - intros H. rewrite firstn_all2 by auto. rewrite <- (app_nil_r (ssave s v)), kinematics_roundtrip by auto. auto.
Qed.
(** a save on a device with room for everything returns if the file can be opened and the tag is a name; nothing else on the disk changes, whatever happens *)
Theorem file_save_returns {A} k tag dev (d : disk A) s v p : (length (ssave s v) <= room dev)%nat ->
  (fst (saver k tag dev d s v p) = Fine <-> openable dev p = true /\ (k = Xml -> good_tag tag)).
Proof.
  intros R. rewrite saver_spec. destruct (openable dev p); cbn [negb fst]; [|split; [discriminate|intros [? _]; discriminate]].
  destruct (Nat.ltb_spec (room dev + buffer dev) (length (ssave s v))) as [|B]; [lia|].
  destruct k; try (cbn [fst]; split; [split; auto; discriminate|auto]). rewrite <- (good_effective tag). destruct (valid_tag _); cbn [negb fst]; split; auto; try discriminate. intros [_ H]. specialize (H eq_refl). discriminate.
Qed.
Theorem file_save_frame {A} k tag dev (d : disk A) s v p q : q <> p -> snd (saver k tag dev d s v p) q = d q.
Proof. intros H. rewrite saver_spec. destruct (openable dev p); cbn [negb]; auto. destruct (match k with Xml => _ | _ => _ end); cbn [snd]; apply upd_other; auto. Qed.
(** a path that cannot be opened: std::runtime_error, and nothing has changed *)
Theorem file_unopenable {A} k tag dev (d : disk A) s v old p : 
  (openable dev p = false -> saver k tag dev d s v p = (RuntimeE, d)) /\ (d p = None -> loader k tag d s old p = (RuntimeE, old)).
Proof. split; intros H. { rewrite saver_spec, H. auto. } destruct k; unfold loader, load_bin, load_txt, load_xml3, read_archive; rewrite H; auto. Qed.
(** a file of another format is refused and the object keeps its value *)
Theorem file_other_format {A} k k' tag (d : disk A) s old p f : d p = Some f -> fkind f = k -> k <> k' -> loader k' tag d s old p = (ArchiveE, old).
Proof. intros E F N. destruct k, k'; try congruence; unfold loader, load_bin, load_txt, load_xml3, read_archive; rewrite E, F; auto. Qed.
(** the overloads without a tag, and an empty tag, use the tag object *)
Theorem file_default_tag {A} dev (d : disk A) s v old p : save_xml2 dev d s v p = saver Xml "object" dev d s v p /\ save_xml3 dev d s v "" p = save_xml3 dev d s v "object" p /\ load_xml2 d s old p = loader Xml "object" d s old p.
Proof. repeat split. Qed.
(** A full device: save returns although the file cannot be loaded; a failing save has already destroyed the file that was there *)
Theorem file_roundtrip_refuted : let d0 : disk Z := fun _ => None in let T := [0; 0; 0; 1; 5; 6; 7]%Z in let dev := Device (fun _ => true) 100 10 in
  (exists d1 new, saver Binary "" (Device (fun _ => true) 5 10) d0 transformation T "f" = (Fine, d1) /\ loader Binary "" d1 transformation T "f" = (ArchiveE, new)) /\
  (exists d1 d2 new, saver Xml "pose" dev d0 transformation T "f" = (Fine, d1) /\ loader Xml "" d1 transformation T "f" = (Fine, T) /\
     saver Xml "my pose" dev d1 transformation T "f" = (ArchiveE, d2) /\ loader Xml "" d2 transformation T "f" = (ArchiveE, new)).
Proof. cbv zeta. split; [eexists _, _; split; reflexivity|eexists _, _, _; repeat split; reflexivity]. Qed.
Example file_case : good_tag "T_a_b" /\ ~ good_tag "my pose" /\ sound transformation /\ length (ssave transformation [0; 0; 0; 1; 5; 6; 7]%Z) = 12%nat.
Proof. unfold good_tag. split; [reflexivity|]. split; [discriminate|]. split; [cbn; repeat split; lia|reflexivity]. Qed.
