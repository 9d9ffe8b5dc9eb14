(** C36 - C43: MatrixArchive. *)
From Verif Require Import Bytes HashId_Model HashId_Proofs Strings_Model Archive_Model Archive_Spec Archive_Proofs.
From Coq Require Import Sorted.
Open Scope nat_scope.

(** ** Histories of an archive *)
Inductive op :=
  | OClear | OClearName (n : bytes) | OSetScalar (n d : bytes) | OSetString (n v : bytes) | OSetMatrix (n : bytes) (m : matrix)
  | OSetVector (n : bytes) (m : matrix) | OCreate (n : bytes) (m : matrix) (overwrite : bool)
  | OLoad (J : nat -> junk) (names : list bytes) (file : bytes).
Definition step (a : archive) (o : op) : archive * status unit :=
  match o with
  | OClear => (clear a, Ok tt) | OClearName n => (clearName a n, Ok tt) | OSetScalar n d => setScalar a n d
  | OSetString n v => setString a n v | OSetMatrix n m => setMatrix a n m | OSetVector n m => setVector a n m
  | OCreate n m ow => createMatrix a n m ow | OLoad J names file => load J names file a
  end.
Definition run (ops : list op) : archive := fold_left (fun a o => fst (step a o)) ops empty.

Lemma run_snoc ops o : run (ops ++ [o]) = fst (step (run ops) o).
Proof. unfold run. now rewrite fold_left_app. Qed.
Lemma load_inv (P : archive -> Prop) J names : (forall a n b, P a -> validateName n = true -> P (store a n b)) ->
  forall fuel k s a, P a -> P (fst (load_loop fuel J k names s a)).
Proof.
  intros H. induction fuel as [|f IH]; intros k s a Pa; cbn; auto.
  destruct (_ || _); cbn; auto. destruct (readBlock (J k) s) as [[[n b] s']|]; auto.
  destruct (selected names n); auto. destruct (validateName n) eqn:V; auto.
Qed.
Lemma op_inv (P : archive -> Prop) :
  P empty ->
  (forall a, P a -> P (clear a)) -> (forall a n, P a -> P (clearName a n)) ->
  (forall a n d, P a -> validateName n = true -> P (mkA (mset (values a) n (mkM 1 1 d)) (strings a))) ->
  (forall a n v, P a -> validateName n = true -> P (mkA (merase (values a) n) (mset (strings a) n v))) ->
  (forall a n m, P a -> validateName n = true -> P (mkA (mset (values a) n m) (merase (strings a) n))) ->
  (forall a n, P a -> P (mkA (values a) (merase (strings a) n))) ->
  (forall a n m, P a -> validateName n = true -> P (mkA (mset (values a) n m) (strings a))) ->
  (forall a n v, P a -> validateName n = true -> P (mkA (values a) (mset (strings a) n v))) ->
  forall ops, (forall a n m ow, In (OCreate n m ow) ops -> P a -> P (mkA (mset (values a) n m) (strings a))) -> P (run ops).
Proof.
  intros H0 H1 H2 H3 H4 H5 H6 H7 H8 ops. induction ops as [|o ops IH] using rev_ind; intros HC; auto.
  rewrite run_snoc. assert (Pa : P (run ops)).
  { apply IH. intros a n m ow I. eapply HC. apply in_or_app. left; eauto. }
  destruct o; cbn [step].
  - now apply H1.
  - now apply H2.
  - unfold setScalar. destruct (validateName n) eqn:V; cbn; auto.
  - unfold setString. destruct (validateName n) eqn:V; cbn; auto.
  - unfold setMatrix. destruct (validateName n) eqn:V; cbn; auto.
  - unfold setVector. destruct (negb _); cbn; auto. destruct (validateName n) eqn:V; cbn; auto.
  - unfold createMatrix. destruct (if overwrite then None else _); cbn; auto. eapply HC; auto. apply in_or_app. right. now left.
  - unfold load. apply load_inv; auto. intros a n [m|s] A V; cbn; auto.
Qed.

Lemma run_sorted ops : sorted (values (run ops)) /\ sorted (strings (run ops)).
Proof.
  apply (op_inv (fun a => sorted (values a) /\ sorted (strings a))); cbn; intros;
    repeat match goal with H : _ /\ _ |- _ => destruct H end;
    split; repeat (apply set_sorted || apply erase_sorted); auto; constructor.
Qed.
Lemma run_strings_valid ops : forall n s, In (n, s) (strings (run ops)) -> valid_name n.
Proof.
  apply (op_inv (fun a => forall n s, In (n, s) (strings a) -> valid_name n)); cbn; intros;
    repeat match goal with
    | H : In _ (mset _ _ _) |- _ => apply in_set in H as [H|H]
    | H : In _ (merase _ _) |- _ => apply filter_In in H as [H _]
    | H : (_, _) = (_, _) |- _ => injection H as -> ->
    end; try (now apply validateName_spec); eauto; now destruct H || contradiction.
Qed.

Lemma contents_sorted_ok a : sorted (values a) -> sorted (strings a) ->
  (forall n m, getMatrix a n = Ok m -> valid_name n /\ fits (BMatrix m)) ->
  (forall n s, getString a n = Ok s -> valid_name n /\ fits (BString s)) ->
  forall n b, In (n, b) (contents a) -> valid_name n /\ fits b.
Proof.
  intros S1 S2 HM HS n b I. apply in_app_or in I as [I|I]; apply in_map_iff in I as ([k v] & E & I); cbn in E; injection E as -> <-.
  - apply HM. unfold getMatrix. now rewrite (In_find _ _ _ S1 I).
  - apply HS. unfold getString. now rewrite (In_find _ _ _ S2 I).
Qed.

Lemma last_matrix_map (l : list (bytes * matrix)) n : sorted l -> last_matrix (map (fun p => (fst p, BMatrix (snd p))) l) n = mfind l n.
Proof.
  unfold sorted. induction l as [|[k m] l IH]; intros S; cbn; auto. inversion S as [|? ? S1 S2]; subst. rewrite IH by auto.
  destruct (bytes_eqb k n) eqn:E; [|now destruct (mfind l n)]. destruct (mfind l n) eqn:F; auto. exfalso.
  apply find_In in F. apply bytes_eqb_eq in E. subst. rewrite Forall_forall in S2. specialize (S2 _ F). unfold klt in S2. cbn in S2.
  rewrite ltb_irrefl in S2. discriminate.
Qed.
Lemma last_string_map (l : list (bytes * bytes)) n : sorted l -> last_string (map (fun p => (fst p, BString (snd p))) l) n = mfind l n.
Proof.
  unfold sorted. induction l as [|[k m] l IH]; intros S; cbn; auto. inversion S as [|? ? S1 S2]; subst. rewrite IH by auto.
  destruct (bytes_eqb k n) eqn:E; [|now destruct (mfind l n)]. destruct (mfind l n) eqn:F; auto. exfalso.
  apply find_In in F. apply bytes_eqb_eq in E. subst. rewrite Forall_forall in S2. specialize (S2 _ F). unfold klt in S2. cbn in S2.
  rewrite ltb_irrefl in S2. discriminate.
Qed.
Lemma last_matrix_app l1 l2 n : last_matrix (l1 ++ l2) n = or_else (last_matrix l2 n) (last_matrix l1 n).
Proof. induction l1 as [|[k b] l1 IH]; cbn; [now destruct last_matrix|]. rewrite IH. destruct (last_matrix l2 n); cbn; auto. Qed.
Lemma last_string_app l1 l2 n : last_string (l1 ++ l2) n = or_else (last_string l2 n) (last_string l1 n).
Proof. induction l1 as [|[k b] l1 IH]; cbn; [now destruct last_string|]. rewrite IH. destruct (last_string l2 n); cbn; auto. Qed.
Lemma last_matrix_strings l n : last_matrix (map (fun p : bytes * bytes => (fst p, BString (snd p))) l) n = None.
Proof. induction l as [|[k m] l IH]; cbn; auto. now rewrite IH. Qed.
Lemma last_string_matrices l n : last_string (map (fun p : bytes * matrix => (fst p, BMatrix (snd p))) l) n = None.
Proof. induction l as [|[k m] l IH]; cbn; auto. now rewrite IH. Qed.
Lemma contents_last a n : sorted (values a) -> sorted (strings a) ->
  last_matrix (contents a) n = mfind (values a) n /\ last_string (contents a) n = mfind (strings a) n.
Proof.
  intros S1 S2. unfold contents. rewrite last_matrix_app, last_string_app, last_matrix_strings, last_string_matrices.
  rewrite last_matrix_map, last_string_map by auto. cbn. split; auto. now destruct (mfind (strings a) n).
Qed.

Lemma load_loop_end fuel J k names a : 0 < fuel -> load_loop fuel J k names (mkI [] false) a = (a, Ok tt).
Proof. destruct fuel; [lia|]. reflexivity. Qed.
Lemma load_all J names l a : (forall n b, In (n, b) l -> valid_name n /\ fits b) ->
  load J names (encode_all l) a = (store_all (chosen names l) a, Ok tt).
Proof.
  intros H. destruct (load_encoded J names l [] a H) as (fuel & L & E). rewrite app_nil_r in E. rewrite E. now apply load_loop_end.
Qed.
Lemma store_sorted a n b : sorted (values a) /\ sorted (strings a) -> sorted (values (store a n b)) /\ sorted (strings (store a n b)).
Proof. intros [A B]. destruct b; cbn; split; auto; now apply set_sorted. Qed.
Lemma store_all_sorted l a : sorted (values a) /\ sorted (strings a) -> sorted (values (store_all l a)) /\ sorted (strings (store_all l a)).
Proof. revert a. induction l as [|p l IH]; intros a H; auto. apply IH. now apply store_sorted. Qed.
Lemma chosen_all l : chosen [] l = l.
Proof. unfold chosen. induction l as [|p l IH]; auto. cbn. f_equal. exact IH. Qed.

(** ** C36: save then load *)
Theorem save_load_roundtrip : forall (J : nat -> junk) (ops : list op),
  (forall n m, getMatrix (run ops) n = Ok m -> valid_name n /\ fits (BMatrix m)) ->
  (forall n s, getString (run ops) n = Ok s -> fits (BString s)) ->
  exists file, save [] (run ops) = (file, true) /\ file = encode_all (contents (run ops)) /\
               load J [] file empty = (run ops, Ok tt).
Proof.
  intros J ops HM HS. destruct (run_sorted ops) as [S1 S2]. set (a := run ops) in *.
  assert (HC : forall n b, In (n, b) (contents a) -> valid_name n /\ fits b).
  { apply contents_sorted_ok; auto. intros n s G. split; [|eauto]. unfold getString in G. destruct (mfind (strings a) n) eqn:F; [|discriminate].
    apply (run_strings_valid ops n l). now apply find_In. }
  exists (encode_all (contents a)). rewrite save_encode by auto.
  assert (CF : filter (fun p => selected [] (fst p)) (contents a) = contents a) by apply chosen_all.
  rewrite CF. repeat split; auto. rewrite load_all by auto. rewrite chosen_all. f_equal.
  destruct (store_all_sorted (contents a) empty) as [T1 T2]; [split; constructor|].
  pose proof (store_all_merged (contents a) empty) as MG.
  assert (AE : forall x y : archive, values x = values y -> strings x = strings y -> x = y).
  { intros [v1 s1] [v2 s2]; cbn; congruence. }
  apply AE; apply sorted_ext; auto; intros n; destruct (MG n) as [A B]; destruct (contents_last a n S1 S2) as [C D].
  - rewrite A, C. cbn. now destruct (mfind (values a) n).
  - rewrite B, D. cbn. now destruct (mfind (strings a) n).
Qed.
(** Beyond the 32-bit size the data is silently dropped: all 2^29 x 1 matrices are saved as the same 43 bytes. *)
Theorem oversized_matrix_refuted : forall n (d1 d2 : bytes), valid_name n ->
  writeMatrixBlock n (mkM (2 ^ 29) 1 d1) = writeMatrixBlock n (mkM (2 ^ 29) 1 d2) /\
  length (fst (writeMatrixBlock n (mkM (2 ^ 29) 1 d1))) = 42.
Proof.
  intros n d1 d2 V. unfold writeMatrixBlock. rewrite writeName_ok by auto. cbn [m_rows m_cols m_data].
  replace (N.to_nat (((2 ^ 29 mod 2 ^ 32 * (1 mod 2 ^ 32)) mod 2 ^ 32 * 8) mod 2 ^ 32)) with 0 by reflexivity.
  split; [reflexivity|]. cbn [fst]. unfold le4. repeat rewrite app_length. rewrite !le_bytes_length, repeat_length. cbn [firstn length]. destruct V. lia.
Qed.

(** ** C37: names *)
Theorem names_valid_refuted : exists ops n, mfind (values (run ops)) n <> None /\ ~ valid_name n.
Proof.
  exists [OCreate (str "1") (mkM 0 0 []) false], (str "1"). split; [discriminate|].
  intros [_ (c & r & E & L & _)]. injection E as <- <-. unfold letter in L. lia.
Qed.
Theorem names_valid_partial : forall ops,
  (forall n m ow, In (OCreate n m ow) ops -> valid_name n) ->
  forall n, mfind (values (run ops)) n <> None \/ mfind (strings (run ops)) n <> None -> valid_name n.
Proof.
  intros ops HC n H.
  assert (X : (forall n m, In (n, m) (values (run ops)) -> valid_name n)).
  { apply (op_inv (fun a => forall n m, In (n, m) (values a) -> valid_name n)); cbn; intros;
    repeat match goal with
    | H : In _ (mset _ _ _) |- _ => apply in_set in H as [H|H]
    | H : In _ (merase _ _) |- _ => apply filter_In in H as [H _]
    | H : (_, _) = (_, _) |- _ => injection H as -> ->
    end; try (now apply validateName_spec); eauto; try contradiction. }
  destruct H as [H|H].
  - destruct (mfind (values (run ops)) n) eqn:F; [|congruence]. apply find_In in F. eauto.
  - destruct (mfind (strings (run ops)) n) eqn:F; [|congruence]. apply find_In in F. eapply run_strings_valid; eauto.
Qed.

(** ** C38: truncated and corrupted files *)
(** A prefix ending at a block boundary loads exactly the complete blocks. A prefix ending inside a block throws, provided
    the uninitialised variable [end] does not happen to contain 'B', and exactly the complete blocks have been loaded. *)
Theorem truncation_partial : forall J names l b p t a,
  (forall n c, In (n, c) (l ++ [b]) -> valid_name n /\ fits c) -> encode b = p ++ t -> t <> [] ->
  (p <> [] -> J (length l) VEnd 0 <> 66%N) ->
  exists a', load J names (encode_all l ++ p) a = (a', match p with [] => Ok tt | _ => Threw end) /\
    forall n, (wanted names n -> mfind (values a') n = or_else (last_matrix l n) (mfind (values a) n) /\
                                 mfind (strings a') n = or_else (last_string l n) (mfind (strings a) n)) /\
              (~ wanted names n -> mfind (values a') n = mfind (values a) n /\ mfind (strings a') n = mfind (strings a) n).
Proof.
  intros J names l b p t a H E T JE.
  assert (HL : forall n c, In (n, c) l -> valid_name n /\ fits c) by (intros; apply H; apply in_or_app; auto).
  exists (store_all (chosen names l) a). split.
  - destruct (load_encoded J names l p a HL) as (fuel & L & EL). rewrite EL. destruct p as [|c p].
    + apply load_loop_end; cbn in L; lia.
    + destruct fuel; [lia|]. cbn [load_loop failed rest orb].
      destruct (readBlock (J (length l)) (mkI (c :: p) false)) as [[[n b'] s']|] eqn:RB; auto. exfalso.
      destruct (readBlock_sound (J (length l)) (mkI (c :: p) false) n b' s' eq_refl (JE ltac:(discriminate)) RB) as (F & bs & RW & EB). cbn [rest] in EB.
      assert (V : valid_name (fst b) /\ fits (snd b)). { apply H. apply in_or_app. right. left. now destruct b. }
      pose proof (encode_raw (J (length l)) _ _ (proj1 V) (proj2 V)) as RW2.
      replace (fst b, snd b) with b in RW2 by now destruct b.
      pose proof (readBlock_raw _ _ _ _ [] RW2) as R2. rewrite app_nil_r, E, EB in R2.
      rewrite <- app_assoc in R2. rewrite (readBlock_raw _ _ _ _ _ RW) in R2. injection R2 as _ _ R2.
      apply app_eq_nil in R2 as [_ R2]. auto.
  - intros n. pose proof (store_all_merged (chosen names l) a n) as [A B].
    assert (C1 : wanted names n -> last_matrix (chosen names l) n = last_matrix l n /\ last_string (chosen names l) n = last_string l n).
    { intros W. apply selected_spec in W. clear - W. induction l as [|[k c] l [IH1 IH2]]; cbn; auto.
      destruct (selected names k) eqn:S; cbn; unfold chosen in IH1, IH2; rewrite ?IH1, ?IH2; auto.
      assert (NE : bytes_eqb k n = false) by (apply bytes_eqb_false; congruence). rewrite NE.
        destruct (last_matrix l n), (last_string l n), c; auto. }
    assert (C2 : ~ wanted names n -> last_matrix (chosen names l) n = None /\ last_string (chosen names l) n = None).
    { intros W. rewrite <- selected_spec in W. clear - W. induction l as [|[k c] l [IH1 IH2]]; cbn; auto.
      destruct (selected names k) eqn:S; cbn; unfold chosen in IH1, IH2; rewrite ?IH1, ?IH2; auto.
      assert (NE : bytes_eqb k n = false) by (apply bytes_eqb_false; congruence). rewrite NE. now destruct c. }
    split; intros W.
    + destruct (C1 W) as [E1 E2]. now rewrite <- E1, <- E2.
    + destruct (C2 W) as [E1 E2]. rewrite E1, E2 in *. auto.
Qed.

(** Any file that loads without an exception is a sequence of complete blocks, under the same proviso. *)
Theorem load_accepts_only_blocks : forall J names file a a',
  (forall k, J k VEnd 0 <> 66%N) -> load J names file a = (a', Ok tt) ->
  exists l : list (nat * bytes * block * bytes),
    file = concat (map snd l) /\
    (forall k n b bs, In (k, n, b, bs) l -> raw (J k) n b bs /\ (wanted names n -> valid_name n)) /\
    merged (filter (fun p => selected names (fst p)) (map (fun x => (snd (fst (fst x)), snd (fst x))) l)) a a'.
Proof.
  intros J names file a a' JE. unfold load.
  assert (G : forall fuel k f a, length f < fuel -> load_loop fuel J k names (mkI f false) a = (a', Ok tt) ->
     exists l, f = concat (map snd l) /\ (forall k n b bs, In (k, n, b, bs) l -> raw (J k) n b bs /\ (wanted names n -> valid_name n)) /\
     merged (filter (fun p => selected names (fst p)) (map (fun x : nat * bytes * block * bytes => (snd (fst (fst x)), snd (fst x))) l)) a a').
  { induction fuel as [|fu IH]; intros k f b L H; [lia|]. cbn [load_loop failed rest orb] in H. destruct f as [|c f].
    - injection H as ->. exists []. split; auto. split; [intros ? ? ? ? []|]. apply merged_refl.
    - destruct (readBlock (J k) (mkI (c :: f) false)) as [[[n bl] s']|] eqn:RB; [|discriminate].
      destruct (readBlock_sound (J k) (mkI (c :: f) false) n bl s' eq_refl (JE k) RB) as (F & bs & RW & EB). cbn [rest] in EB.
      assert (L' : length (rest s') < fu).
      { apply (f_equal (@length N)) in EB. rewrite app_length in EB. pose proof (raw_nonempty _ _ _ _ RW). destruct bs; [congruence|]. cbn in *. lia. }
      destruct s' as [r' f']. cbn in F, EB, L'. subst f'.
      destruct (selected names n) eqn:S.
      + destruct (validateName n) eqn:V; [|discriminate]. destruct (IH _ _ _ L' H) as (l & E1 & E2 & E3).
        exists ((k, n, bl, bs) :: l). split; [cbn; now rewrite EB, E1|]. split.
        * intros k0 n0 b0 bs0 [E|I]; [|auto]. injection E as <- <- <- <-. split; auto. intros _. now apply validateName_spec.
        * cbn. rewrite S. change (?x :: ?y) with ([x] ++ y) at 1. eapply merged_app; [apply store_merged|exact E3].
      + destruct (IH _ _ _ L' H) as (l & E1 & E2 & E3).
        exists ((k, n, bl, bs) :: l). split; [cbn; now rewrite EB, E1|]. split.
        * intros k0 n0 b0 bs0 [E|I]; [|auto]. injection E as <- <- <- <-. split; auto. intros W. apply selected_spec in W. congruence.
        * cbn. now rewrite S. }
  apply G. lia.
Qed.

(** Without the proviso (reading uninitialised variables is undefined behaviour): a 1x1 matrix whose file lost its last two
    bytes loads without an exception and with another value. *)
Definition ex_archive : archive := mkA [(str "x", mkM 1 1 [0;0;0;0;0;0;240;63]%N)] [].
Theorem truncation_refuted : exists J p t, fst (save [] ex_archive) = p ++ t /\ t <> [] /\
  exists a', load J [] p empty = (a', Ok tt) /\ getMatrix a' (str "x") <> Threw /\
             getMatrix a' (str "x") <> getMatrix ex_archive (str "x").
Proof.
  exists (fun _ v _ => match v with VEnd => 66%N | _ => 0%N end), (firstn 48 (fst (save [] ex_archive))), (skipn 48 (fst (save [] ex_archive))).
  split; [now rewrite firstn_skipn|]. split; [vm_compute; discriminate|].
  eexists. split; [vm_compute; reflexivity|]. split; vm_compute; discriminate.
Qed.

(** ** C39: merging *)
Theorem load_merges : forall J names l a, (forall n b, In (n, b) l -> valid_name n /\ fits b) ->
  exists a', load J names (encode_all l) a = (a', Ok tt) /\
    forall n, (wanted names n -> mfind (values a') n = or_else (last_matrix l n) (mfind (values a) n) /\
                                 mfind (strings a') n = or_else (last_string l n) (mfind (strings a) n)) /\
              (~ wanted names n -> mfind (values a') n = mfind (values a) n /\ mfind (strings a') n = mfind (strings a) n).
Proof.
  intros J names l a H.
  destruct (truncation_partial J names l (str "x", BString []) [] (encode (str "x", BString [])) a) as (a' & E & X); auto.
  - intros n c I. apply in_app_or in I as [I|[I|[]]]; auto. injection I as <- <-. split; [|reflexivity].
    split; [cbn; lia|]. exists 120%N, []. repeat split; [unfold letter; lia|intros ? []].
  - discriminate.
  - exists a'. rewrite app_nil_r in E. auto.
Qed.
(** save(names) writes exactly the wanted entries. *)
Theorem save_selects : forall names a, (forall n b, In (n, b) (contents a) -> valid_name n /\ fits b) ->
  exists l, save names a = (encode_all l, true) /\ forall n b, In (n, b) l <-> In (n, b) (contents a) /\ wanted names n.
Proof.
  intros names a H. exists (filter (fun p => selected names (fst p)) (contents a)). split; [now apply save_encode|].
  intros n b. rewrite filter_In. cbn. now rewrite selected_spec.
Qed.

(** ** C40: one map *)
Definition same_else (n : bytes) (a a' : archive) : Prop :=
  forall k, k <> n -> mfind (values a') k = mfind (values a) k /\ mfind (strings a') k = mfind (strings a) k.

Ltac mapgo := cbn; rewrite ?find_set, ?find_erase, ?bytes_eqb_refl; auto.
Ltac mapgo' := cbn [fst snd values strings m_rows m_cols m_data N.eqb Pos.eqb negb]; rewrite ?find_set, ?find_erase, ?bytes_eqb_refl.
Theorem archive_map_partial : forall ops n, let a := run ops in
  (* successful sets *)
  (valid_name n ->
     (forall m, let a' := fst (setMatrix a n m) in snd (setMatrix a n m) = Ok tt /\ getMatrix a' n = Ok m /\ getString a' n = Threw /\ same_else n a a') /\
     (forall s, let a' := fst (setString a n s) in snd (setString a n s) = Ok tt /\ getString a' n = Ok s /\ getMatrix a' n = Threw /\ same_else n a a') /\
     (forall d, length d = 8 -> let a' := fst (setScalar a n d) in
        snd (setScalar a n d) = Ok tt /\ getScalar a' n = Ok d /\ getMatrix a' n = Ok (mkM 1 1 d) /\ same_else n a a') /\
     (forall m, m_cols m = 1%N -> length (m_data m) = N.to_nat (m_rows m * 8) -> let a' := fst (setVector a n m) in
        snd (setVector a n m) = Ok tt /\ getVector a' n = Ok (m_data m) /\ getMatrix a' n = Ok m /\ same_else n a a') /\
     (forall m, m_cols m <> 1%N -> setVector a n m = (a, Threw))) /\
  (forall m ow, ow = true \/ getMatrix a n = Threw -> let a' := fst (createMatrix a n m ow) in
     snd (createMatrix a n m ow) = Ok tt /\ getMatrix a' n = Ok m /\ same_else n a a') /\
  (* rejected calls change nothing *)
  (~ valid_name n -> forall m s d, setMatrix a n m = (a, Threw) /\ setString a n s = (a, Threw) /\ setScalar a n d = (a, Threw) /\
     setVector a n m = (a, Threw)) /\
  (forall m x, getMatrix a n = Ok x -> createMatrix a n m false = (a, Threw)) /\
  (* the typed getters *)
  (forall m, getMatrix a n = Ok m -> (m_cols m <> 1%N -> getVector a n = Threw /\ getScalar a n = Threw) /\
     (m_rows m <> 1%N -> getScalar a n = Threw)) /\
  (getMatrix a n = Threw -> getVector a n = Threw /\ getScalar a n = Threw) /\
  (* sizes count the distinct names of each kind *)
  NoDup (map fst (values a)) /\ NoDup (map fst (strings a)) /\
  (In n (map fst (values a)) <-> getMatrix a n <> Threw) /\ (In n (map fst (strings a)) <-> getString a n <> Threw) /\
  size a = length (map fst (values a)) + length (map fst (strings a)).
Proof.
  intros ops n a. destruct (run_sorted ops) as [S1 S2]. fold a in S1, S2.
  assert (ND : forall V (m : list (bytes * V)), sorted m -> NoDup (map fst m)).
  { intros V m. unfold sorted. induction m as [|[k v] m IH]; intros S; cbn; constructor; inversion S as [|? ? A B]; subst; auto.
    intros I. apply in_map_iff in I as ([k' v'] & E & I). cbn in E. subst. rewrite Forall_forall in B. specialize (B _ I).
    unfold klt in B. cbn in B. rewrite ltb_irrefl in B. discriminate. }
  assert (IN : forall V (m : list (bytes * V)), In n (map fst m) <-> mfind m n <> None).
  { intros V m. induction m as [|[k v] m IH]; cbn; [intuition|]. destruct (bytes_eqb k n) eqn:E.
    - apply bytes_eqb_eq in E. intuition congruence.
    - apply bytes_eqb_false in E. rewrite <- IH. intuition. }
  assert (SE : forall k, k <> n -> bytes_eqb n k = false) by (intros; apply bytes_eqb_false; congruence).
  split; [|split; [|split; [|split; [|split; [|split]]]]].
  - intros V. apply validateName_spec in V. unfold setMatrix, setString, setScalar, setVector, getMatrix, getString, getScalar, getVector, same_else.
    rewrite V. split; [|split; [|split; [|split]]].
    + intros m. mapgo'. repeat split; intros; mapgo'; auto; rewrite ?SE by auto; auto.
    + intros m. mapgo'. repeat split; intros; mapgo'; auto; rewrite ?SE by auto; auto.
    + intros d L. mapgo'. rewrite <- L, firstn_all. repeat split; intros; mapgo'; auto; rewrite ?SE by auto; auto.
    + intros m C L. rewrite C. mapgo'. rewrite C. cbn [N.eqb Pos.eqb]. rewrite <- L, firstn_all. repeat split; intros; mapgo'; auto; rewrite ?SE by auto; auto.
    + intros m C. apply N.eqb_neq in C. rewrite C. reflexivity.
  - intros m ow H. unfold createMatrix, getMatrix in *. 
    assert (X : (if ow then None else mfind (values a) n) = None) by (destruct H as [->|H]; auto; destruct ow; auto; destruct (mfind _ n); [discriminate|auto]).
    rewrite X. repeat split; mapgo; rewrite ?SE by auto; auto.
  - intros V m s d. assert (VN : validateName n = false) by (destruct (validateName n) eqn:E; auto; apply validateName_spec in E; contradiction).
    unfold setMatrix, setString, setScalar, setVector. rewrite VN. cbn. repeat split; auto; [|now destruct (negb _)].
    f_equal. assert (AE : forall x y : archive, values x = values y -> strings x = strings y -> x = y) by (intros [v1 s1] [v2 s2]; cbn; congruence).
    apply AE; cbn [values strings]; auto. apply sorted_ext; auto; [now apply erase_sorted|].
    intros k. rewrite find_erase. destruct (bytes_eqb n k) eqn:E; auto. apply bytes_eqb_eq in E. subst.
    destruct (mfind (strings a) k) eqn:F; auto. exfalso. apply V. apply (run_strings_valid ops k l). now apply find_In.
  - intros m x G. unfold getMatrix, createMatrix in *. destruct (mfind (values a) n); [auto|discriminate].
  - intros m G. unfold getMatrix, getVector, getScalar in *. destruct (mfind (values a) n) as [x|]; [|discriminate]. injection G as ->. split.
    + intros C. apply N.eqb_neq in C. rewrite C. cbn. split; auto. now destruct (negb _).
    + intros C. apply N.eqb_neq in C. now rewrite C.
  - intros G. unfold getMatrix, getVector, getScalar in *. destruct (mfind (values a) n) as [x|]; [discriminate|auto].
  - unfold getMatrix, getString, size, sizeMatrices, sizeStrings. repeat split; auto.
    + rewrite IN. destruct (mfind (values a) n); congruence.
    + rewrite IN. destruct (mfind (values a) n); congruence.
    + rewrite IN. destruct (mfind (strings a) n); congruence.
    + rewrite IN. destruct (mfind (strings a) n); congruence.
    + rewrite !map_length. lia.
Qed.
(** A name can denote a matrix and a string at once ... *)
Theorem one_kind_refuted : exists ops n m s, getMatrix (run ops) n = Ok m /\ getString (run ops) n = Ok s.
Proof. exists [OSetString (str "x") (str "s"); OSetScalar (str "x") [0;0;0;0;0;0;240;63]%N], (str "x"). eexists. eexists. split; reflexivity. Qed.
(** ... but not if only setMatrix, setString and clear are used. *)
Definition one_kind_op (o : op) : Prop :=
  match o with OClear | OClearName _ | OSetString _ _ | OSetMatrix _ _ => True | _ => False end.
Theorem one_kind_partial : forall ops, (forall o, In o ops -> one_kind_op o) ->
  forall n, getMatrix (run ops) n = Threw \/ getString (run ops) n = Threw.
Proof.
  intros ops H n. unfold getMatrix, getString.
  enough (X : mfind (values (run ops)) n = None \/ mfind (strings (run ops)) n = None) by (destruct X as [-> | ->]; auto).
  induction ops as [|o ops IH] using rev_ind; [now left|]. rewrite run_snoc.
  assert (IH' : mfind (values (run ops)) n = None \/ mfind (strings (run ops)) n = None) by (apply IH; intros; apply H; apply in_or_app; auto).
  specialize (H o ltac:(apply in_or_app; right; now left)). clear IH.
  destruct o; try contradiction; cbn [step].
  - cbn. auto.
  - unfold clearName. cbn. rewrite !find_erase. destruct (bytes_eqb n0 n); auto.
  - unfold setString. destruct (validateName n0); cbn; auto. rewrite find_erase, find_set. destruct (bytes_eqb n0 n); auto.
  - unfold setMatrix. destruct (validateName n0); cbn; rewrite ?find_erase, ?find_set; destruct (bytes_eqb n0 n); auto.
Qed.

(** ** C41: append *)
Theorem append_refuted : exists a file, append_file [] a file <> file ++ fst (save [] a).
Proof. exists ex_archive, []. vm_compute. discriminate. Qed.
Theorem append_partial : forall names a file, exists added, append_file names a file = file ++ added.
Proof. intros. exists []. now rewrite app_nil_r. Qed.

(** ** C42: clear *)
Theorem clear_refuted : exists ops n, getString (clearName (run ops) n) n <> Threw.
Proof. exists [OSetString (str "x") (str "s")], (str "x"). discriminate. Qed.
Theorem clear_partial : forall a n,
  (forall k, getMatrix (clear a) k = Threw /\ getString (clear a) k = Threw) /\ size (clear a) = 0 /\
  getMatrix (clearName a n) n = Threw /\ same_else n a (clearName a n) /\ strings (clearName a n) = strings a.
Proof.
  intros a n. unfold getMatrix, getString, clearName, same_else. cbn. rewrite !find_erase, bytes_eqb_refl. repeat split; auto.
  rewrite !find_erase. assert (E : bytes_eqb n k = false) by (apply bytes_eqb_false; congruence). now rewrite E.
Qed.

(** ** C43: MATLAB *)
(** What a MATLAB value becomes as a block. *)
Definition as_block (v : mval) : block :=
  match v with MNum r c d => BMatrix (mkM r c d) | MChar r c d => BString d end.
(** Values saveMatrixArchive accepts: non-empty, chars as one row. *)
Definition ml_ok (v : mval) : Prop :=
  fits (as_block v) /\ match v with MNum r c d => r <> 0%N /\ c <> 0%N | MChar r c d => r = 1%N /\ c <> 0%N /\ N.of_nat (length d) = c end.
Lemma valid_ml_name n : valid_name n -> ml_name_ok n = true.
Proof.
  intros [L (c & r & -> & A & B)]. unfold ml_name_ok. rewrite andb_true_iff, Nat.leb_le, forallb_forall. split; auto.
  intros x [<-|H]; rewrite orb_true_iff, is_alnum_spec, N.eqb_eq; auto. destruct (B x H) as [|[|]]; auto.
Qed.
Lemma ml_blocks_encode f : (forall n v, In (n, v) f -> valid_name n /\ ml_ok v) ->
  ml_blocks f = Some (encode_all (map (fun p => (fst p, as_block (snd p))) f)).
Proof.
  induction f as [|[n v] f IH]; intros H; auto. cbn [ml_blocks]. rewrite IH by (intros; apply H; now right).
  destruct (H n v ltac:(now left)) as [V [F O]].
  assert (X : ml_block n v = Some (encode (n, as_block v))).
  { destruct v; cbn in O; unfold ml_block, encode, as_block, padded.
    - destruct O as [O1 O2]. apply N.eqb_neq in O1, O2. rewrite O1, O2. cbn [orb m_rows m_cols m_data]. rewrite <- !u32_le4, <- !app_assoc. reflexivity.
    - destruct O as (O1 & O2 & O3). subst rows. apply N.eqb_neq in O2. rewrite O2. change (1 =? 0)%N with false. cbn [orb].
      rewrite <- !u32_le4, <- !app_assoc, O3. reflexivity. }
  rewrite X. reflexivity.
Qed.
Theorem matlab_save_loads_partial : forall J f, (forall n v, In (n, v) f -> valid_name n /\ ml_ok v) -> NoDup (map fst f) ->
  exists file a, ml_save f false [] = Some file /\ load J [] file empty = (a, Ok tt) /\
    (forall n r c d, In (n, MNum r c d) f <-> getMatrix a n = Ok (mkM r c d)) /\
    (forall n d, (exists c, In (n, MChar 1 c d) f) <-> getString a n = Ok d).
Proof.
  intros J f H ND. set (l := map (fun p => (fst p, as_block (snd p))) f).
  assert (HL : forall n b, In (n, b) l -> valid_name n /\ fits b).
  { intros n b I. apply in_map_iff in I as ([k v] & E & I). cbn in E. injection E as -> <-. destruct (H _ _ I) as [A [B _]]. auto. }
  exists (encode_all l), (store_all l empty). split.
  { unfold ml_save. rewrite (ml_blocks_encode f H).
    assert (X : forallb (fun p => ml_name_ok (fst p)) f = true).
    { apply forallb_forall. intros [n v] I. apply valid_ml_name. apply (H _ _ I). }
    now rewrite X. }
  split. { rewrite load_all by auto. now rewrite chosen_all. }
  pose proof (store_all_merged l empty) as MG.
  assert (KM : forall n m, last_matrix l n = Some m <-> exists r c d, m = mkM r c d /\ In (n, MNum r c d) f).
  { subst l. clear - ND. induction f as [|[k v] f IH]; intros n m; cbn.
    - split; [discriminate|]. intros (? & ? & ? & _ & []).
    - inversion ND as [|? ? N1 N2]; subst. specialize (IH N2 n m).
      destruct (last_matrix _ n) as [m'|] eqn:E.
      + split.
        * intros [= ->]. destruct (proj1 IH eq_refl) as (r & c & d & E1 & E2). exists r, c, d. auto.
        * intros (r & c & d & -> & [E1|E1]); [|apply IH; eauto]. injection E1 as -> ->. exfalso. apply N1.
          assert (X : forall f, last_matrix (map (fun p => (fst p, as_block (snd p))) f) n <> None -> In n (map fst f)).
          { clear. induction f as [|[k v] f IH]; cbn; [congruence|]. destruct (last_matrix _ n); [right; apply IH; congruence|].
            destruct v; cbn; [|congruence]. destruct (bytes_eqb k n) eqn:E; [|congruence]. apply bytes_eqb_eq in E. auto. }
          apply X. cbn in E |- *. congruence.
      + destruct v as [r0 c0 d0|r0 c0 d0]; cbn.
        * destruct (bytes_eqb k n) eqn:K.
          -- apply bytes_eqb_eq in K. subst. split.
             ++ intros [= <-]. exists r0, c0, d0. auto.
             ++ intros (r & c & d & -> & [E1|E1]); [injection E1 as -> -> ->; auto|]. exfalso. apply N1. exact (in_map fst _ _ E1).
          -- apply bytes_eqb_false in K. rewrite IH. split; [intros (r & c & d & A & B); exists r, c, d; auto|].
             intros (r & c & d & A & [B|B]); [congruence|]. exists r, c, d. auto.
        * rewrite IH. split; [intros (r & c & d & A & B); exists r, c, d; auto|].
             intros (r & c & d & A & [B|B]); [congruence|]. exists r, c, d. auto. }
  assert (KS : forall n s, last_string l n = Some s <-> exists r c, In (n, MChar r c s) f).
  { subst l. clear - ND. induction f as [|[k v] f IH]; intros n m; cbn.
    - split; [discriminate|]. intros (? & ? & []).
    - inversion ND as [|? ? N1 N2]; subst. specialize (IH N2 n m).
      destruct (last_string _ n) as [m'|] eqn:E.
      + split.
        * intros [= ->]. destruct (proj1 IH eq_refl) as (r & c & E1). exists r, c. auto.
        * intros (r & c & [E1|E1]); [|apply IH; eauto]. injection E1 as -> ->. exfalso. apply N1.
          assert (X : forall f, last_string (map (fun p => (fst p, as_block (snd p))) f) n <> None -> In n (map fst f)).
          { clear. induction f as [|[k v] f IH]; cbn; [congruence|]. destruct (last_string _ n); [right; apply IH; congruence|].
            destruct v; cbn; [congruence|]. destruct (bytes_eqb k n) eqn:E; [|congruence]. apply bytes_eqb_eq in E. auto. }
          apply X. cbn in E |- *. congruence.
      + destruct v as [r0 c0 d0|r0 c0 d0]; cbn.
        * rewrite IH. split; [intros (r & c & B); exists r, c; auto|].
             intros (r & c & [B|B]); [congruence|]. exists r, c. auto.
        * destruct (bytes_eqb k n) eqn:K.
          -- apply bytes_eqb_eq in K. subst. split.
             ++ intros [= <-]. exists r0, c0. auto.
             ++ intros (r & c & [E1|E1]); [injection E1 as -> -> ->; auto|]. exfalso. apply N1. exact (in_map fst _ _ E1).
          -- apply bytes_eqb_false in K. rewrite IH. split; [intros (r & c & B); exists r, c; auto|].
             intros (r & c & [B|B]); [congruence|]. exists r, c. auto. }
  split.
  - intros n r c d. unfold getMatrix. destruct (MG n) as [A _]. rewrite A. cbn [mfind values empty].
    assert (OE : forall x : option matrix, or_else x None = x) by now intros []. rewrite OE. clear A. split.
    + intros I. rewrite (proj2 (KM n (mkM r c d))); eauto. 
    + destruct (last_matrix l n) eqn:E; [|discriminate]. intros [= ->]. apply KM in E as (r' & c' & d' & E & I). injection E as -> -> ->. auto.
  - intros n d. unfold getString. destruct (MG n) as [_ A]. rewrite A. cbn [mfind strings empty].
    assert (OE : forall x : option bytes, or_else x None = x) by now intros []. rewrite OE. clear A. split.
    + intros [c I]. rewrite (proj2 (KS n d)); eauto.
    + destruct (last_string l n) eqn:E; [|discriminate]. intros [= ->]. apply KS in E as (r' & c' & I). exists c'.
      destruct (H _ _ I) as [_ [_ (-> & _)]]. auto.
Qed.
(** Appending: a file written in two steps is the file written in one. *)
Lemma ml_blocks_app f1 f2 x1 x2 : ml_blocks f1 = Some x1 -> ml_blocks f2 = Some x2 -> ml_blocks (f1 ++ f2) = Some (x1 ++ x2).
Proof.
  revert x1. induction f1 as [|[n v] f1 IH]; intros x1 E1 E2; cbn [ml_blocks app] in *; [injection E1 as <-; auto|].
  destruct (ml_block n v) as [b|]; [|discriminate]. destruct (ml_blocks f1) as [y|]; [|discriminate]. injection E1 as <-. rewrite (IH y eq_refl E2), app_assoc. reflexivity.
Qed.
Theorem matlab_append : forall f1 f2 old file1 file2, ml_save f1 false old = Some file1 -> ml_save f2 true file1 = Some file2 ->
  ml_save (f1 ++ f2) false old = Some file2.
Proof.
  intros f1 f2 old file1 file2. unfold ml_save. rewrite forallb_app.
  destruct (forallb _ f1); [|discriminate]. destruct (ml_blocks f1) as [x1|] eqn:E1; [|discriminate]. intros [= <-].
  destruct (forallb _ f2); [|discriminate]. destruct (ml_blocks f2) as [x2|] eqn:E2; [|discriminate]. intros [= <-].
  now rewrite (ml_blocks_app f1 f2 x1 x2 E1 E2).
Qed.
(** What saveMatrixArchive refuses: a name of more than 32 characters or with anything but letters, digits and underscores, or an empty array. *)
Theorem matlab_save_refuses : forall f append old, ml_save f append old = None <->
  exists n v, In (n, v) f /\ (32 < length n \/ (exists c, In c n /\ ~ letter c /\ ~ digit c /\ [c] <> str "_") \/
    match v with MNum r c _ | MChar r c _ => r = 0%N \/ c = 0%N end).
Proof.
  intros f append old. unfold ml_save.
  assert (NM : forall n, ml_name_ok n = false <-> 32 < length n \/ exists c, In c n /\ ~ letter c /\ ~ digit c /\ [c] <> str "_").
  { intros n. unfold ml_name_ok. rewrite andb_false_iff, Nat.leb_gt. 
    assert (X : forallb (fun c => is_alnum c || N.eqb c 95) n = false <-> exists c, In c n /\ ~ letter c /\ ~ digit c /\ [c] <> str "_").
    { induction n as [|c n IH]; cbn [forallb]; [split; [discriminate|intros (c & [] & _)]|]. rewrite andb_false_iff, IH, orb_false_iff.
      assert (Y : is_alnum c = false /\ N.eqb c 95 = false <-> ~ letter c /\ ~ digit c /\ [c] <> str "_").
      { rewrite N.eqb_neq. assert (Z : is_alnum c = false <-> ~ (letter c \/ digit c)) by (rewrite <- is_alnum_spec; destruct (is_alnum c); split; congruence).
        rewrite Z. change (str "_") with [95%N]. split; [intros [A B]; repeat split; try tauto; congruence | intros (A & B & C); split; [tauto | congruence]]. }
      rewrite Y. split; [intros [A|(d & I & A)]; [exists c|exists d]; cbn; tauto|]. intros (d & [-> |I] & A); [auto|right; exists d; tauto]. }
    rewrite X. tauto. }
  assert (B : ml_blocks f = None <-> exists n v, In (n, v) f /\ match v with MNum r c _ | MChar r c _ => r = 0%N \/ c = 0%N end).
  { clear NM. induction f as [|[n v] f IH]; cbn [ml_blocks]; [split; [discriminate|intros (n & v & [] & _)]|].
    assert (X : ml_block n v = None <-> match v with MNum r c _ | MChar r c _ => r = 0%N \/ c = 0%N end).
    { destruct v as [r c d|r c d]; cbn [ml_block]; destruct (N.eqb_spec r 0), (N.eqb_spec c 0); cbn [orb]; split; auto; try discriminate; tauto. }
    split.
    - destruct (ml_block n v) as [b|] eqn:MB.
      + destruct (ml_blocks f) as [y|]; [discriminate|]. intros _. destruct (proj1 IH eq_refl) as (k & u & I & P). exists k, u. split; [now right | auto].
      + intros _. exists n, v. split; [now left | now apply X].
    - intros (k & u & [I|I] & P).
      + injection I as <- <-. now rewrite (proj2 X P).
      + destruct (ml_block n v); auto. rewrite (proj2 IH); eauto. }
  destruct (forallb (fun p => ml_name_ok (fst p)) f) eqn:F.
  - rewrite forallb_forall in F. destruct (ml_blocks f) as [x|] eqn:E.
    + split; [discriminate|]. intros (n & v & I & [L|[L|Z]]).
      * specialize (F _ I). cbn [fst] in F. rewrite (proj2 (NM n)) in F by auto. discriminate.
      * specialize (F _ I). cbn [fst] in F. rewrite (proj2 (NM n)) in F by auto. discriminate.
      * assert (X : Some x = None) by (apply B; eauto). discriminate X.
    + split; auto. intros _. destruct (proj1 B eq_refl) as (n & v & I & P). exists n, v. auto.
  - split; auto. intros _. assert (X : exists p, In p f /\ ml_name_ok (fst p) = false).
    { clear - F. induction f as [|p f IH]; [discriminate|]. cbn [forallb] in F. apply andb_false_iff in F as [F|F]; [exists p; cbn; auto|].
      destruct (IH F) as (q & I & Q). exists q. cbn. auto. }
    destruct X as ([n v] & I & Q). exists n, v. split; auto. apply NM in Q. tauto.
Qed.
(** A char array with two rows is written with a wrong size, and its file does not load. *)
Theorem matlab_char_matrix_refuted : exists file, ml_save [(str "s", MChar 2 2 (str "acbd"))] false [] = Some file /\
  forall J, snd (load J [] file empty) = Threw.
Proof. eexists. split; [vm_compute; reflexivity|]. intros J. vm_compute. reflexivity. Qed.

(** loadMatrixArchive.m reads what save() wrote; a string hides a matrix of the same name. *)
Definition ml_view (a : archive) (n : bytes) : option mval :=
  match mfind (strings a) n with
  | Some s => Some (MChar 1 (N.of_nat (length s)) s)
  | None => match mfind (values a) n with Some m => Some (MNum (m_rows m) (m_cols m) (m_data m)) | None => None end
  end.
Definition of_block (b : block) : mval :=
  match b with BMatrix m => MNum (m_rows m) (m_cols m) (m_data m) | BString s => MChar 1 (N.of_nat (length s)) s end.
Lemma fread_ok s n x : length x = n -> fread (x ++ s) n = Some (x, s).
Proof.
  intros L. unfold fread. rewrite app_length, L. destruct (Nat.leb_spec n (n + length s)); [|lia]. subst n.
  now rewrite firstn_app, Nat.sub_diag, firstn_all, firstn_O, app_nil_r, skipn_app, Nat.sub_diag, skipn_all.
Qed.
Lemma ml_load_blocks : forall l fuel f, length l < fuel -> (forall n b, In (n, b) l -> valid_name n /\ fits b) ->
  ml_load_loop fuel (encode_all l) f = MOk (fold_left (fun f p => mset f (fst p) (of_block (snd p))) l f).
Proof.
  induction l as [|[n b] l IH]; intros fuel f L H; (destruct fuel; [cbn in L; lia|]); [reflexivity|].
  destruct (H n b ltac:(now left)) as [V F].
  change (encode_all ((n, b) :: l)) with (encode (n, b) ++ encode_all l).
  pose proof (trim_padded (32 - length n) n V) as TP.
  assert (NE : (length n =? 0) = false) by (destruct V as [_ (c & r & -> & _)]; reflexivity).
  assert (LN : length (repeat 32%N (32 - length n) ++ n) = 32) by (rewrite app_length, repeat_length; destruct V; lia).
  destruct b as [m|s]; cbn in F; unfold encode; rewrite <- !app_assoc; rewrite (app_assoc (repeat _ _)); cbn [ml_load_loop].
  - rewrite (fread_ok _ 1) by reflexivity. cbn [nth str]. change (N_of_ascii "A") with CH_A. change (N.eqb CH_A CH_S) with false. change (N.eqb CH_A CH_A) with true. cbn [negb andb].
    rewrite (fread_ok _ 32) by auto. rewrite TP, NE.
    rewrite (app_assoc (u32 _) (u32 _)). rewrite (fread_ok _ 8 (u32 (m_rows m) ++ u32 (m_cols m))) by reflexivity.
    change (firstn 4 (u32 (m_rows m) ++ u32 (m_cols m))) with (u32 (m_rows m)). change (skipn 4 (u32 (m_rows m) ++ u32 (m_cols m))) with (u32 (m_cols m)).
    destruct F as (F1 & F2 & F3 & F4). rewrite !u32_val by auto. rewrite (fread_ok _ _ (m_data m)) by auto.
    rewrite (fread_ok _ 1) by reflexivity. cbn [nth]. change (negb (N_of_ascii "B" =? CH_B)%N) with false. cbv iota.
    rewrite IH; [reflexivity|cbn in L; lia|intros; apply H; now right].
  - rewrite (fread_ok _ 1) by reflexivity. cbn [nth str]. change (N_of_ascii "S") with CH_S. change (N.eqb CH_S CH_S) with true. cbn [negb andb].
    rewrite (fread_ok _ 32) by auto. rewrite TP, NE.
    rewrite (fread_ok _ 4 (u32 _)) by reflexivity. rewrite !u32_val by auto. rewrite (fread_ok _ _ s) by lia.
    rewrite (fread_ok _ 1) by reflexivity. cbn [nth]. change (negb (N_of_ascii "B" =? CH_B)%N) with false. cbv iota.
    rewrite IH; [reflexivity|cbn in L; lia|intros; apply H; now right].
Qed.
Theorem matlab_loads_saved : forall ops,
  (forall n m, getMatrix (run ops) n = Ok m -> valid_name n /\ fits (BMatrix m)) ->
  (forall n s, getString (run ops) n = Ok s -> fits (BString s)) ->
  exists f, ml_load (fst (save [] (run ops))) = MOk f /\ forall n, mfind f n = ml_view (run ops) n.
Proof.
  intros ops HM HS. destruct (run_sorted ops) as [S1 S2]. pose proof (run_strings_valid ops) as SV. set (a := run ops) in *.
  assert (HC : forall n b, In (n, b) (contents a) -> valid_name n /\ fits b).
  { apply contents_sorted_ok; auto. intros n s G. split; [|eauto]. unfold getString in G. destruct (mfind (strings a) n) eqn:F; [|discriminate].
    apply (SV n l). now apply find_In. }
  rewrite save_encode by auto. cbn [fst].
  replace (filter (fun p => selected [] (fst p)) (contents a)) with (contents a) by (symmetry; apply chosen_all).
  eexists. split. { unfold ml_load. apply ml_load_blocks; auto. pose proof (encode_all_len (contents a)). lia. }
  intros n. unfold contents. rewrite fold_left_app.
  assert (G : forall l f, sorted l -> mfind (fold_left (fun f p => mset f (fst p) (of_block (snd p))) (map (fun p : bytes * bytes => (fst p, BString (snd p))) l) f) n =
     match mfind l n with Some s => Some (MChar 1 (N.of_nat (length s)) s) | None => mfind f n end).
  { induction l as [|[k s] l IH]; intros f S; auto. inversion S as [|? ? A B]; subst. cbn [map fold_left]. rewrite IH by auto. cbn.
    destruct (mfind l n) eqn:E.
    - destruct (bytes_eqb k n) eqn:K; auto. apply bytes_eqb_eq in K. subst. apply find_In in E. rewrite Forall_forall in B. specialize (B _ E).
      unfold klt in B. cbn in B. rewrite ltb_irrefl in B. discriminate.
    - rewrite find_set. now destruct (bytes_eqb k n). }
  assert (G' : forall l f, sorted l -> mfind (fold_left (fun f p => mset f (fst p) (of_block (snd p))) (map (fun p : bytes * matrix => (fst p, BMatrix (snd p))) l) f) n =
     match mfind l n with Some m => Some (MNum (m_rows m) (m_cols m) (m_data m)) | None => mfind f n end).
  { induction l as [|[k s] l IH]; intros f S; auto. inversion S as [|? ? A B]; subst. cbn [map fold_left]. rewrite IH by auto. cbn.
    destruct (mfind l n) eqn:E.
    - destruct (bytes_eqb k n) eqn:K; auto. apply bytes_eqb_eq in K. subst. apply find_In in E. rewrite Forall_forall in B. specialize (B _ E).
      unfold klt in B. cbn in B. rewrite ltb_irrefl in B. discriminate.
    - rewrite find_set. now destruct (bytes_eqb k n). }
  rewrite G, G' by auto. reflexivity.
Qed.

(** ** Examples *)
Definition ex_ops : list op :=
  [OSetScalar (str "pi") [24;45;68;84;251;33;9;64]%N; OSetString (str "note_1") (str "hello"); OSetMatrix (str "M") (mkM 2 1 (repeat 7%N 16))].
Example ex_hyp : (forall n m, getMatrix (run ex_ops) n = Ok m -> valid_name n /\ fits (BMatrix m)) /\ size (run ex_ops) = 3.
Proof.
  split; [|reflexivity]. intros n m. unfold getMatrix. change (values (run ex_ops)) with
    [(str "M", mkM 2 1 (repeat 7%N 16)); (str "pi", mkM 1 1 [24;45;68;84;251;33;9;64]%N)]. cbn [mfind].
  destruct (bytes_eqb (str "M") n) eqn:E.
  - apply bytes_eqb_eq in E. subst. intros [= <-]. split; [now apply validateName_spec|]. cbn. repeat split; lia.
  - destruct (bytes_eqb (str "pi") n) eqn:E2; [|discriminate]. apply bytes_eqb_eq in E2. subst. intros [= <-]. split; [now apply validateName_spec|]. cbn. repeat split; lia.
Qed.
Example ex_load : load (fun _ _ _ => 0%N) [str "pi"] (fst (save [] (run ex_ops))) empty =
  (mkA [(str "pi", mkM 1 1 [24;45;68;84;251;33;9;64]%N)] [], Ok tt).
Proof. vm_compute. reflexivity. Qed.

Print Assumptions save_load_roundtrip.
Print Assumptions names_valid_partial.
Print Assumptions truncation_partial.
Print Assumptions load_accepts_only_blocks.
Print Assumptions truncation_refuted.
Print Assumptions load_merges.
Print Assumptions archive_map_partial.
Print Assumptions one_kind_partial.
Print Assumptions matlab_save_loads_partial.
Print Assumptions matlab_loads_saved.
