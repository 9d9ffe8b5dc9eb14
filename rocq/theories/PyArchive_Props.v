(** C119: MatrixArchive from Python. *)
From Verif Require Import Bytes HashId_Model Strings_Model Archive_Model Archive_Spec Archive_Proofs Archive_Props PyArchive_Model.
From Coq Require Import Sorted.
Open Scope nat_scope.

(** A Python history is a C++ history without createMatrix. *)
Definition cpp_op (o : pyop) : op :=
  match o with
  | PClear => OClear | PClearOne n => OClearName n | PSetScalar n d => OSetScalar n d | PSetString n v => OSetString n v
  | PSetMatrix n m => OSetMatrix n m | PSetVector n len d => OSetVector n (mkM len 1 d) | PLoad J f => OLoad J [] f
  end.
Lemma pyrun_from_cpp ops : forall a, pyrun_from a ops = fold_left (fun a o => fst (step a o)) (map cpp_op ops) a.
Proof. induction ops as [|o ops IH]; intros a; auto. cbn [map fold_left]. unfold pyrun_from in *. cbn [fold_left]. rewrite IH. f_equal. now destruct o. Qed.
Lemma pyrun_cpp ops : pyrun ops = run (map cpp_op ops).
Proof. apply pyrun_from_cpp. Qed.
Lemma no_create ops n m ow : ~ In (OCreate n m ow) (map cpp_op ops).
Proof. intros I. apply in_map_iff in I as (o & E & _). destruct o; discriminate. Qed.

(** Every name in an archive made from Python is valid: 1-32 characters, a letter, then letters, digits, '_'. *)
Theorem py_names_valid : forall ops n,
  (exists m, getMatrix (pyrun ops) n = Ok m) \/ (exists s, getString (pyrun ops) n = Ok s) -> valid_name n.
Proof.
  intros ops n H. rewrite pyrun_cpp in H. apply (names_valid_partial (map cpp_op ops)).
  - intros k m ow I. now apply no_create in I.
  - unfold getMatrix, getString in H. destruct H as [[m H]|[s H]]; [left|right]; destruct (mfind _ n); congruence.
Qed.
(** So save() succeeds for every archive made from Python whose entries are below 2^32 bytes, and load() into a new archive
    gives the same two dictionaries. *)
Theorem py_save_load : forall J ops,
  (forall n m, getMatrix (pyrun ops) n = Ok m -> fits (BMatrix m)) ->
  (forall n s, getString (pyrun ops) n = Ok s -> fits (BString s)) ->
  exists file, save [] (pyrun ops) = (file, true) /\
    asDict (pyrun [PLoad J file]) = asDict (pyrun ops) /\ stringsAsDict (pyrun [PLoad J file]) = stringsAsDict (pyrun ops).
Proof.
  intros J ops HM HS. destruct (save_load_roundtrip J (map cpp_op ops)) as (file & S & _ & L).
  - intros n m G. rewrite <- pyrun_cpp in G. split; [apply (py_names_valid ops); eauto | eauto].
  - intros n s G. rewrite <- pyrun_cpp in G. eauto.
  - rewrite <- pyrun_cpp in S, L. exists file. split; auto. unfold pyrun at 1 3, pyrun_from. cbn [fold_left pystep]. rewrite L. auto.
Qed.

(** ** The dictionaries *)
Lemma names_fold {V} (l : list (bytes * V)) : forall acc, fold_left (fun l p => l ++ [fst p]) l acc = acc ++ map fst l.
Proof. induction l as [|p l IH]; intros acc; cbn [fold_left map]; [now rewrite app_nil_r|]. rewrite IH, <- app_assoc. reflexivity. Qed.
Lemma d_set_new {V} (d : pydict V) k v : ~ In k (map fst d) -> d_set d k v = d ++ [(k, v)].
Proof.
  induction d as [|[k' v'] d IH]; intros H; auto. cbn [d_set map fst In] in *.
  assert (E : bytes_eqb k' k = false) by (apply bytes_eqb_false; intros ->; apply H; now left). rewrite E. cbn. f_equal. apply IH. tauto.
Qed.
Lemma dict_fold {V} (l : list (bytes * V)) : forall acc, NoDup (map fst (acc ++ l)) ->
  fold_left (fun d p => d_set d (fst p) (snd p)) l acc = acc ++ l.
Proof.
  induction l as [|[k v] l IH]; intros acc N; cbn [fold_left]; [now rewrite app_nil_r|]. cbn [fst snd].
  assert (NI : ~ In k (map fst acc)).
  { rewrite map_app in N. cbn [map fst] in N. apply NoDup_remove_2 in N. intros I. apply N. apply in_or_app. now left. }
  rewrite d_set_new by auto. rewrite IH; rewrite <- app_assoc; auto.
Qed.
Lemma sorted_keys {V} (l : list (bytes * V)) : sorted l -> StronglySorted (fun a b => bytes_ltb a b = true) (map fst l).
Proof.
  induction 1 as [|p l S IH F]; cbn; constructor; auto. rewrite Forall_map. exact F.
Qed.
Lemma sorted_nodup {V} (l : list (bytes * V)) : sorted l -> NoDup (map fst l).
Proof.
  intros S. apply sorted_keys in S. induction S as [|k ks S IH F]; constructor; auto.
  intros I. rewrite Forall_forall in F. specialize (F k I). rewrite ltb_irrefl in F. discriminate.
Qed.
Lemma pyrun_sorted ops : sorted (values (pyrun ops)) /\ sorted (strings (pyrun ops)).
Proof. rewrite pyrun_cpp. apply run_sorted. Qed.
Lemma asDict_eq ops : asDict (pyrun ops) = values (pyrun ops).
Proof. destruct (pyrun_sorted ops) as [S _]. unfold asDict. now rewrite dict_fold by now apply sorted_nodup. Qed.
Lemma stringsAsDict_eq ops : stringsAsDict (pyrun ops) = strings (pyrun ops).
Proof. destruct (pyrun_sorted ops) as [_ S]. unfold stringsAsDict. now rewrite dict_fold by now apply sorted_nodup. Qed.
Lemma d_get_find {V} (d : list (bytes * V)) k : d_get d k = mfind d k.
Proof. induction d as [|[k' v] d IH];[reflexivity|]. cbn. now rewrite IH. Qed.

Definition as_option {V} (s : status V) : option V := match s with Ok v => Some v | Threw => None end.
(** asDict()[n] is getMatrix(n), stringsAsDict()[n] is getString(n); the keys are each once, in increasing order;
    getNameList() is the keys of asDict(); size() is the number of entries of both. *)
Theorem py_dicts : forall ops, let a := pyrun ops in
  (forall n, d_get (asDict a) n = as_option (getMatrix a n)) /\
  (forall n, d_get (stringsAsDict a) n = as_option (getString a n)) /\
  getNameList a = d_keys (asDict a) /\
  StronglySorted (fun x y => bytes_ltb x y = true) (d_keys (asDict a)) /\
  StronglySorted (fun x y => bytes_ltb x y = true) (d_keys (stringsAsDict a)) /\
  size a = length (d_items (asDict a)) + length (d_items (stringsAsDict a)).
Proof.
  intros ops a. destruct (pyrun_sorted ops) as [S1 S2]. unfold a. rewrite asDict_eq, stringsAsDict_eq.
  split; [|split; [|split; [|split; [|split]]]].
  - intros n. rewrite d_get_find. unfold getMatrix. now destruct (mfind _ n).
  - intros n. rewrite d_get_find. unfold getString. now destruct (mfind _ n).
  - unfold getNameList. now rewrite names_fold.
  - now apply sorted_keys.
  - now apply sorted_keys.
  - unfold size, sizeStrings, sizeMatrices, d_items. lia.
Qed.
(** getScalar and getVector give an answer exactly for the entries of asDict() of the right shape. *)
Theorem py_getters : forall ops n, let a := pyrun ops in
  (forall d, getScalar a n = Ok d <-> exists m, d_get (asDict a) n = Some m /\ m_rows m = 1%N /\ m_cols m = 1%N /\ d = firstn 8 (m_data m)) /\
  (forall v, getVector a n = Ok v <-> exists m, d_get (asDict a) n = Some m /\ m_cols m = 1%N /\ v = firstn (N.to_nat (m_rows m * 8)) (m_data m)).
Proof.
  intros ops n a. unfold a. rewrite asDict_eq, d_get_find. unfold getScalar, getVector. destruct (mfind _ n) as [m|].
  2:{ split; intros d; (split; [discriminate | intros (m & E & _); discriminate]). }
  split; intros d.
  - destruct (N.eqb (m_rows m) 1) eqn:R; cbn [negb].
    + destruct (N.eqb (m_cols m) 1) eqn:C; cbn [negb].
      * apply N.eqb_eq in R, C. split; [intros E; injection E as <-; eauto | intros (m' & E & _ & _ & ->); now injection E as <-].
      * apply N.eqb_neq in C. split; [discriminate | intros (m' & E & _ & C' & _); injection E as <-; contradiction].
    + apply N.eqb_neq in R. split; [discriminate | intros (m' & E & R' & _); injection E as <-; contradiction].
  - destruct (N.eqb (m_cols m) 1) eqn:C.
    + apply N.eqb_eq in C. split; [intros E; injection E as <-; eauto | intros (m' & E & _ & ->); now injection E as <-].
    + apply N.eqb_neq in C. split; [discriminate | intros (m' & E & C' & _); injection E as <-; contradiction].
Qed.
(** The names of the strings are not in getNameList(). *)
Theorem py_names_refuted : exists ops n s, getString (pyrun ops) n = Ok s /\ getNameList (pyrun ops) = [].
Proof. exists [PSetString (str "x") (str "v")], (str "x"). eexists. split; reflexivity. Qed.

(** ** An archive rebuilt from its dictionaries *)
Definition rebuild (strs : pydict bytes) (mats : pydict matrix) : list pyop :=
  map (fun p => PSetString (fst p) (snd p)) (d_items strs) ++ map (fun p => PSetMatrix (fst p) (snd p)) (d_items mats).
Lemma rebuild_strings (l : list (bytes * bytes)) : forall a, (forall n s, In (n, s) l -> valid_name n) -> NoDup (map fst l) ->
  let r := pyrun_from a (map (fun p => PSetString (fst p) (snd p)) l) in
  (forall n, mfind (strings r) n = or_else (mfind l n) (mfind (strings a) n)) /\ (forall n, mfind (values a) n = None -> mfind (values r) n = None).
Proof.
  induction l as [|[k v] l IH]; intros a H N; [cbn; auto|]. inversion N as [|x y NI N']; subst.
  cbn [map]. unfold pyrun_from in *. cbn [fold_left pystep fst snd]. set (a1 := fst (setString a k v)).
  destruct (IH a1) as [A B]; [intros; apply (H n s); now right | auto |]. cbn zeta in A, B.
  assert (V : validateName k = true) by (apply validateName_spec, (H k v); now left).
  assert (E : a1 = mkA (merase (values a) k) (mset (strings a) k v)) by (unfold a1, setString; now rewrite V).
  split; intros n.
  - rewrite A, E. cbn [strings mfind]. rewrite find_set. destruct (bytes_eqb k n) eqn:K; [|reflexivity].
    apply bytes_eqb_eq in K. subst n. assert (F : mfind l k = None).
    { destruct (mfind l k) eqn:F; auto. apply find_In in F. exfalso. apply NI. apply in_map_iff. exists (k, l0). auto. }
    now rewrite F.
  - intros F. apply B. rewrite E. cbn [values]. rewrite find_erase. destruct (bytes_eqb k n); auto.
Qed.
Lemma rebuild_matrices (l : list (bytes * matrix)) : forall a, (forall n m, In (n, m) l -> valid_name n) -> NoDup (map fst l) ->
  let r := pyrun_from a (map (fun p => PSetMatrix (fst p) (snd p)) l) in
  (forall n, mfind (values r) n = or_else (mfind l n) (mfind (values a) n)) /\
  (forall n, mfind (strings r) n = match mfind l n with Some _ => None | None => mfind (strings a) n end).
Proof.
  induction l as [|[k v] l IH]; intros a H N; [cbn; auto|]. inversion N as [|x y NI N']; subst.
  cbn [map]. unfold pyrun_from in *. cbn [fold_left pystep fst snd]. set (a1 := fst (setMatrix a k v)).
  destruct (IH a1) as [A B]; [intros; apply (H n m); now right | auto |]. cbn zeta in A, B.
  assert (V : validateName k = true) by (apply validateName_spec, (H k v); now left).
  assert (E : a1 = mkA (mset (values a) k v) (merase (strings a) k)) by (unfold a1, setMatrix; now rewrite V).
  assert (F : mfind l k = None).
  { destruct (mfind l k) eqn:F; auto. apply find_In in F. exfalso. apply NI. apply in_map_iff. exists (k, m). auto. }
  split; intros n.
  - rewrite A, E. cbn [values mfind]. rewrite find_set. destruct (bytes_eqb k n) eqn:K; [|reflexivity].
    apply bytes_eqb_eq in K. subst n. now rewrite F.
  - rewrite B, E. cbn [strings mfind]. rewrite find_erase. destruct (bytes_eqb k n) eqn:K; [|reflexivity].
    apply bytes_eqb_eq in K. subst n. now rewrite F.
Qed.
Lemma pyrun_app o1 o2 : pyrun (o1 ++ o2) = pyrun_from (pyrun o1) o2.
Proof. unfold pyrun, pyrun_from. now rewrite fold_left_app. Qed.
(** If no name is a matrix and a string at once, setting the strings and then the matrices in a new archive gives the
    archive back. *)
Theorem py_rebuild_partial : forall ops, let a := pyrun ops in
  (forall n, getMatrix a n = Threw \/ getString a n = Threw) ->
  pyrun (rebuild (stringsAsDict a) (asDict a)) = a.
Proof.
  intros ops a H. destruct (pyrun_sorted ops) as [S1 S2]. unfold a in *. rewrite asDict_eq, stringsAsDict_eq. set (ar := pyrun ops) in *.
  set (ops' := rebuild (strings ar) (values ar)). destruct (pyrun_sorted ops') as [T1 T2].
  assert (VS : forall n s, In (n, s) (strings ar) -> valid_name n).
  { intros n s I. apply (py_names_valid ops). right. exists s. unfold getString. fold ar. now rewrite (In_find _ n s). }
  assert (VM : forall n s, In (n, s) (values ar) -> valid_name n).
  { intros n s I. apply (py_names_valid ops). left. exists s. unfold getMatrix. fold ar. now rewrite (In_find _ n s). }
  destruct (rebuild_strings (strings ar) empty VS (sorted_nodup _ S2)) as [A B].
  fold (pyrun (map (fun p : bytes * bytes => PSetString (fst p) (snd p)) (strings ar))) in A, B.
  destruct (rebuild_matrices (values ar) (pyrun (map (fun p : bytes * bytes => PSetString (fst p) (snd p)) (strings ar))) VM (sorted_nodup _ S1)) as [C D].
  rewrite <- pyrun_app in C, D. change (_ ++ _) with ops' in C, D. cbn zeta in A, B, C, D.
  assert (AE : forall x y : archive, values x = values y -> strings x = strings y -> x = y).
  { intros [v1 s1] [v2 s2]; cbn; congruence. }
  apply AE; apply sorted_ext; auto; intros n.
  - rewrite C, (B n eq_refl). now destruct (mfind (values ar) n).
  - rewrite D, A. destruct (H n) as [G|G]; unfold getMatrix, getString in G.
    + destruct (mfind (values ar) n); [discriminate|]. cbn. now destruct (mfind (strings ar) n).
    + destruct (mfind (strings ar) n); [discriminate|]. cbn. now destruct (mfind (values ar) n).
Qed.
Theorem py_rebuild_refuted : exists ops, pyrun (rebuild (stringsAsDict (pyrun ops)) (asDict (pyrun ops))) <> pyrun ops.
Proof. exists [PSetString (str "x") (str "v"); PSetScalar (str "x") [0;0;0;0;0;0;240;63]%N]. vm_compute. discriminate. Qed.
Example py_rebuild_case : exists ops, let a := pyrun ops in (forall n, getMatrix a n = Threw \/ getString a n = Threw) /\ size a = 2.
Proof.
  exists [PSetString (str "x") (str "v"); PSetScalar (str "y") [0;0;0;0;0;0;240;63]%N]. split; [|reflexivity].
  intros n. destruct (bytes_eqb (str "y") n) eqn:E; [apply bytes_eqb_eq in E; subst n; right; reflexivity | left].
  unfold getMatrix, pyrun, pyrun_from. cbn [fold_left pystep]. change (values _) with [(str "y", mkM 1 1 [0;0;0;0;0;0;240;63]%N)].
  cbn [mfind]. now rewrite E.
Qed.

(** ** lsma *)
(** For archives saved from histories with valid entries: lsma prints, for each file in turn, the strings and then the
    matrices in increasing order of the names, each line with the path in front exactly if there are several files. *)
Definition listing (show : matrix -> bytes) (prefix : bytes) (a : archive) : bytes :=
  concat (map (fun s => prefix ++ fst s ++ str " : " ++ snd s ++ [10%N]) (strings a)) ++
  concat (map (fun m => prefix ++ fst m ++ str " :" ++ [10%N] ++ show (snd m) ++ [10%N]) (values a)).
Definition saved_by (file : bytes) (a : archive) : Prop :=
  exists ops, a = pyrun ops /\ (forall n m, getMatrix a n = Ok m -> fits (BMatrix m)) /\
              (forall n s, getString a n = Ok s -> fits (BString s)) /\ save [] a = (file, true).
Theorem lsma_lists : forall show J (args : list (bytes * bytes * archive)), args <> [] ->
  (forall p f a, In (p, f, a) args -> saved_by f a) ->
  lsma show J (map fst args) =
    (concat (map (fun x => listing show (match args with [_] => [] | _ => fst (fst x) ++ str ":" end) (snd x)) args), Some 0%Z).
Proof.
  intros show J args NE H. unfold lsma. rewrite map_length. destruct args as [|x0 args0] eqn:EA; [contradiction|].
  replace (S (length (x0 :: args0)) <? 2) with false by reflexivity. rewrite <- EA in *. clear NE.
  assert (L : forall k l, (forall p f a, In (p, f, a) l -> saved_by f a) -> forall argc,
    lsma_loop show J argc k (map fst l) = (concat (map (fun x => listing show (if 2 <? argc then fst (fst x) ++ str ":" else []) (snd x)) l), Some 0%Z)).
  { intros k l. revert k. induction l as [|[[p f] a] l IH]; intros k HL argc; [reflexivity|].
    cbn [map fst lsma_loop]. destruct (HL p f a) as (ops & E & HM & HS & SV); [now left|]. subst a.
    destruct (save_load_roundtrip (J k) (map cpp_op ops)) as (file & S & _ & LD).
    { intros n m G. rewrite <- pyrun_cpp in G. split; [apply (py_names_valid ops); eauto | eauto]. }
    { intros n s G. rewrite <- pyrun_cpp in G. eauto. }
    rewrite <- pyrun_cpp in S, LD. rewrite S in SV. injection SV as ->. rewrite LD. cbn match.
    rewrite IH by (intros; eapply HL; right; eauto). cbn [map concat snd fst]. reflexivity. }
  rewrite L by auto. f_equal. f_equal. apply map_ext. intros x. f_equal. rewrite EA. destruct args0; reflexivity.
Qed.
Theorem lsma_usage : forall show J, lsma show J [] = ([], Some (-1)%Z).
Proof. reflexivity. Qed.
(** A file that cannot be loaded ends the program: nothing is printed for it or for the files after it. *)
Theorem lsma_stops : forall show J bad p rest, (forall j, snd (load j [] bad empty) = Threw) ->
  lsma show J ((p, bad) :: rest) = ([], None).
Proof.
  intros show J bad p rest H. unfold lsma. cbn [length]. replace (S (S (length rest)) <? 2) with false by reflexivity.
  cbn [lsma_loop]. specialize (H (J 0)). destruct (load (J 0) [] bad empty) as [x [v|]]; [discriminate H | reflexivity].
Qed.
Example lsma_bad : forall j, snd (load j [] (str "x") empty) = Threw.
Proof. intros j. unfold load. cbn. reflexivity. Qed.
