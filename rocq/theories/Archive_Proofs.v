(** Lemmas about the archive model. *)
From Verif Require Import Bytes HashId_Model HashId_Proofs Strings_Model Archive_Model Archive_Spec.
From Coq Require Import Sorted RelationClasses.
Open Scope nat_scope.

(** ** names *)
Lemma is_alpha_letter c : is_alpha c = true <-> letter c.
Proof. unfold is_alpha, is_upper, is_lower, letter. rewrite orb_true_iff, !andb_true_iff, !N.leb_le. tauto. Qed.
Lemma is_alnum_spec c : is_alnum c = true <-> letter c \/ digit c.
Proof. unfold is_alnum. rewrite orb_true_iff, is_alpha_letter. unfold is_digit, digit. rewrite andb_true_iff, !N.leb_le. tauto. Qed.
Lemma validateName_spec n : validateName n = true <-> valid_name n.
Proof.
  unfold validateName, valid_name, s_fixedNameSize. destruct (Nat.ltb_spec 32 (length n)) as [L|L]; cbn [orb].
  - split; [discriminate|]. intros [A _]. lia.
  - destruct n as [|c r]; cbn [length Nat.eqb].
    + split; [discriminate|]. intros [_ (c & r & E & _)]. discriminate.
    + rewrite andb_true_iff, is_alpha_letter, forallb_forall. cbn in L. split.
      * intros [A B]. split; [lia|]. exists c, r. repeat split; auto. intros x Hx. specialize (B x Hx).
        rewrite orb_true_iff, is_alnum_spec, N.eqb_eq in B. tauto.
      * intros [_ (c' & r' & E & A & B)]. injection E as <- <-. split; auto. intros x Hx. specialize (B x Hx).
        rewrite orb_true_iff, is_alnum_spec, N.eqb_eq. tauto.
Qed.
Lemma name_char c : letter c \/ digit c \/ c = 95%N -> is_space c = false /\ c <> 0%N.
Proof.
  unfold letter, digit, is_space. intros H. split; [|lia].
  rewrite orb_false_iff, N.eqb_neq. split; [|lia]. rewrite andb_false_iff, !N.leb_gt. lia.
Qed.
Lemma valid_chars n : valid_name n -> forall x, In x n -> is_space x = false /\ x <> 0%N.
Proof. intros [_ (c & r & -> & A & B)] x [<-|H]; apply name_char; auto. Qed.

Lemma c_str_id s : (forall x, In x s -> x <> 0%N) -> c_str s = s.
Proof.
  induction s as [|x s IH]; intros H; auto. cbn. destruct (N.eqb_spec x 0) as [E|E].
  - exfalso. apply (H x); auto. now left.
  - f_equal. apply IH. intros y Hy. apply H. now right.
Qed.
Lemma trim_left_spaces k s : trim_left (repeat 32%N k ++ s) = trim_left s.
Proof. induction k; cbn; auto. Qed.
Lemma trim_left_id c s : is_space c = false -> trim_left (c :: s) = c :: s.
Proof. intros H. cbn. now rewrite H. Qed.
Lemma trim_padded k n : valid_name n -> trim (repeat 32%N k ++ n) = n.
Proof.
  intros V. pose proof (valid_chars n V) as C. unfold trim. rewrite trim_left_spaces.
  destruct V as [_ (c & r & E & _)].
  assert (TL : trim_left n = n). { rewrite E. apply trim_left_id. apply C. rewrite E. now left. }
  rewrite TL. destruct (rev n) as [|d t] eqn:R.
  - apply (f_equal (@length N)) in R. rewrite rev_length, E in R. discriminate.
  - rewrite trim_left_id.
    + rewrite <- R. apply rev_involutive.
    + apply C. apply in_rev. rewrite R. now left.
Qed.
Lemma name_field n : valid_name n -> trim (c_str (repeat 32%N (32 - length n) ++ n)) = n.
Proof.
  intros V. rewrite c_str_id; [now apply trim_padded|]. intros x Hx. apply in_app_or in Hx as [Hx|Hx].
  - apply repeat_spec in Hx. subst. discriminate.
  - now apply (valid_chars n V).
Qed.

(** ** numbers *)
Lemma u32_le4 v : u32 v = le4 v.
Proof. unfold u32, le4, le_bytes. rewrite !N.div_div by lia. reflexivity. Qed.
Lemma u32_val v : (v < 2 ^ 32)%N -> le_val (u32 v) = v.
Proof. intros H. rewrite u32_le4. apply le_val_bytes. exact H. Qed.
Lemma u32_length v : length (u32 v) = 4. Proof. reflexivity. Qed.

(** ** maps *)
Lemma bytes_eqb_false a b : bytes_eqb a b = false <-> a <> b.
Proof. destruct (bytes_eqb a b) eqn:E; split; try congruence. - apply bytes_eqb_eq in E. congruence. - intros _ H. subst. rewrite bytes_eqb_refl in E. discriminate. Qed.
Lemma ltb_irrefl a : bytes_ltb a a = false.
Proof. induction a as [|x a IH]; auto. cbn. now rewrite N.ltb_irrefl. Qed.
Lemma ltb_trans a b c : bytes_ltb a b = true -> bytes_ltb b c = true -> bytes_ltb a c = true.
Proof.
  revert b c. induction a as [|x a IH]; intros [|y b] [|z c]; cbn; try discriminate; auto.
  destruct (N.ltb_spec x y); destruct (N.ltb_spec y x); destruct (N.ltb_spec y z); destruct (N.ltb_spec z y);
    destruct (N.ltb_spec x z); destruct (N.ltb_spec z x); intros A B; try discriminate; try lia; auto.
  eapply IH; eauto.
Qed.
Lemma ltb_total a b : bytes_ltb a b = false -> bytes_eqb b a = false -> bytes_ltb b a = true.
Proof.
  revert b. induction a as [|x a IH]; intros [|y b]; cbn; try discriminate; auto.
  destruct (N.ltb_spec x y); destruct (N.ltb_spec y x); destruct (N.eqb_spec y x); intros A B; try discriminate; try lia; auto.
Qed.

Section MapLemmas.
  Context {V : Type}.
  Implicit Types m : list (bytes * V).
  Definition klt (p r : bytes * V) : Prop := bytes_ltb (fst p) (fst r) = true.
  Definition sorted m : Prop := StronglySorted klt m.
  Lemma find_set m k v n : mfind (mset m k v) n = if bytes_eqb k n then Some v else mfind m n.
  Proof.
    induction m as [|[k' v'] m IH]; cbn; auto.
    destruct (bytes_ltb k k') eqn:L; cbn; auto.
    destruct (bytes_eqb k' k) eqn:E; cbn.
    - apply bytes_eqb_eq in E. subst. now destruct (bytes_eqb k n).
    - rewrite IH. destruct (bytes_eqb k' n) eqn:E1; destruct (bytes_eqb k n) eqn:E2; auto.
      apply bytes_eqb_eq in E1, E2. apply bytes_eqb_false in E. congruence.
  Qed.
  Lemma find_erase m k n : mfind (merase m k) n = if bytes_eqb k n then None else mfind m n.
  Proof.
    unfold merase. induction m as [|[k' v'] m IH]; cbn; [now destruct bytes_eqb|].
    destruct (bytes_eqb k' k) eqn:E; cbn.
    - rewrite IH. apply bytes_eqb_eq in E. subst. now destruct (bytes_eqb k n).
    - destruct (bytes_eqb k' n) eqn:E1; [|exact IH].
      destruct (bytes_eqb k n) eqn:E2; auto. apply bytes_eqb_eq in E1, E2. apply bytes_eqb_false in E. congruence.
  Qed.
  Lemma in_set m k v p : In p (mset m k v) -> p = (k, v) \/ In p m.
  Proof.
    induction m as [|[k' v'] m IH]; cbn; [intuition|].
    destruct (bytes_ltb k k'); cbn; [intuition|]. destruct (bytes_eqb k' k); cbn; intuition.
  Qed.
  Lemma set_sorted m k v : sorted m -> sorted (mset m k v).
  Proof.
    unfold sorted. induction m as [|[k' v'] m IH]; intros S; cbn.
    - repeat constructor.
    - inversion S as [|? ? S1 S2]; subst. destruct (bytes_ltb k k') eqn:L.
      + constructor; auto. constructor; auto. rewrite Forall_forall in *. intros p Hp. specialize (S2 p Hp).
        unfold klt in *. cbn in *. eapply ltb_trans; eauto.
      + destruct (bytes_eqb k' k) eqn:E.
        * apply bytes_eqb_eq in E. subst. constructor; auto.
        * constructor; [now apply IH|]. rewrite Forall_forall in *. intros p Hp. apply in_set in Hp as [->|Hp]; auto.
          unfold klt. cbn. now apply ltb_total.
  Qed.
  Lemma erase_sorted m k : sorted m -> sorted (merase m k).
  Proof.
    unfold sorted, merase. induction m as [|p m IH]; intros S; cbn; auto.
    inversion S as [|? ? S1 S2]; subst. destruct (negb _); auto. constructor; auto.
    rewrite Forall_forall in *. intros x Hx. apply filter_In in Hx. apply S2, Hx.
  Qed.
  Lemma find_In m k v : mfind m k = Some v -> In (k, v) m.
  Proof.
    induction m as [|[k' v'] m IH]; cbn; [discriminate|]. destruct (bytes_eqb k' k) eqn:E.
    - apply bytes_eqb_eq in E. subst. intros [= <-]. now left.
    - intros H. right. auto.
  Qed.
  Lemma In_find m k v : sorted m -> In (k, v) m -> mfind m k = Some v.
  Proof.
    unfold sorted. induction m as [|[k' v'] m IH]; intros S H; [destruct H|].
    inversion S as [|? ? S1 S2]; subst. cbn. destruct H as [E|H].
    - injection E as -> ->. now rewrite bytes_eqb_refl.
    - destruct (bytes_eqb k' k) eqn:E; [|now apply IH]. apply bytes_eqb_eq in E. subst.
      rewrite Forall_forall in S2. specialize (S2 _ H). unfold klt in S2. cbn in S2. rewrite ltb_irrefl in S2. discriminate.
  Qed.
  (** equal lookups, equal sorted lists *)
  Lemma sorted_ext m1 m2 : sorted m1 -> sorted m2 -> (forall n, mfind m1 n = mfind m2 n) -> m1 = m2.
  Proof.
    unfold sorted. revert m2. induction m1 as [|[k v] m1 IH]; intros m2 S1 S2 H.
    - destruct m2 as [|[k2 v2] m2]; auto. specialize (H k2). cbn in H. rewrite bytes_eqb_refl in H. discriminate.
    - destruct m2 as [|[k2 v2] m2].
      { specialize (H k). cbn in H. rewrite bytes_eqb_refl in H. discriminate. }
      inversion S1 as [|? ? A1 A2]; inversion S2 as [|? ? B1 B2]; subst.
      assert (NK : forall (mm : list (bytes * V)) kk vv n, Forall (klt (kk, vv)) mm -> bytes_ltb n kk = true \/ n = kk -> mfind mm n = None).
      { intros mm kk vv n F L. destruct (mfind mm n) eqn:E; auto. apply find_In in E. rewrite Forall_forall in F.
        specialize (F _ E). unfold klt in F. cbn in F. destruct L as [L|L]; [|subst; rewrite ltb_irrefl in F; discriminate].
        pose proof (ltb_trans _ _ _ F L) as X. rewrite ltb_irrefl in X. discriminate. }
      assert (K : k = k2).
      { pose proof (H k) as H1. pose proof (H k2) as H2. cbn in H1, H2. rewrite bytes_eqb_refl in H1, H2.
        destruct (bytes_eqb k2 k) eqn:E; [now apply bytes_eqb_eq in E|].
        destruct (bytes_eqb k k2) eqn:E'; [now apply bytes_eqb_eq in E'|].
        destruct (bytes_ltb k k2) eqn:L.
        - rewrite (NK m2 k2 v2 k) in H1; auto. discriminate.
        - apply ltb_total in L; auto. rewrite (NK m1 k v k2) in H2; auto. discriminate. }
      subst. pose proof (H k2) as H1. cbn in H1. rewrite bytes_eqb_refl in H1. injection H1 as ->. f_equal.
      apply IH; auto. intros n. specialize (H n). cbn in H. destruct (bytes_eqb k2 n) eqn:E; auto.
      apply bytes_eqb_eq in E. subst. rewrite (NK m1 n v2 n), (NK m2 n v2 n); auto.
  Qed.
End MapLemmas.

(** ** reading *)
Lemma sread_ok s n old x : length x = n -> sread (mkI (x ++ s) false) n old = (x, mkI s false).
Proof.
  intros L. unfold sread. cbn [failed rest]. rewrite app_length, L.
  destruct (Nat.leb_spec n (n + length s)); [|lia]. subst n.
  now rewrite firstn_app, Nat.sub_diag, firstn_all, firstn_O, app_nil_r, skipn_app, Nat.sub_diag, skipn_all.
Qed.
Lemma sread_inv s n old x s' : sread s n old = (x, s') -> failed s' = false ->
  failed s = false /\ rest s = x ++ rest s' /\ length x = n.
Proof.
  unfold sread. destruct s as [r f]. cbn. destruct f.
  - intros [= <- <-]. discriminate.
  - destruct (Nat.leb_spec n (length r)); intros [= <- <-]; cbn; [|discriminate].
    intros _. split; auto. rewrite firstn_skipn. split; auto. rewrite firstn_length. lia.
Qed.
Lemma sread_failed s n old : failed s = true -> sread s n old = (map old (seq 0 n), s).
Proof. unfold sread. now intros ->. Qed.

Lemma readBlock_raw J n b bs x : raw J n b bs -> readBlock J (mkI (bs ++ x) false) = Some (n, b, mkI x false).
Proof.
  intros [nb rb cb d L1 L2 L3 L4 | nb zb d L1 L2 L3].
  - unfold readBlock.
    change ((CH_A :: nb ++ rb ++ cb ++ d ++ [CH_B]) ++ x) with ([CH_A] ++ ((nb ++ rb ++ cb ++ d ++ [CH_B]) ++ x)).
    rewrite (sread_ok _ 1) by reflexivity. cbn [nth]. change (N.eqb CH_A CH_S) with false. change (N.eqb CH_A CH_A) with true.
    cbn [negb andb].
    rewrite <- !app_assoc. rewrite (sread_ok _ s_fixedNameSize) by auto.
    unfold readMatrix. rewrite (sread_ok _ 4) by auto. rewrite (sread_ok _ 4) by auto.
    rewrite (sread_ok _ _ _ d) by auto. rewrite (sread_ok _ 1) by reflexivity. cbn [nth].
    change (N.eqb CH_B CH_B) with true. cbn [andb]. rewrite <- L4. reflexivity.
  - unfold readBlock.
    change ((CH_S :: nb ++ zb ++ d ++ [CH_B]) ++ x) with ([CH_S] ++ ((nb ++ zb ++ d ++ [CH_B]) ++ x)).
    rewrite (sread_ok _ 1) by reflexivity. cbn [nth]. change (N.eqb CH_S CH_S) with true. cbn [negb andb].
    rewrite <- !app_assoc. rewrite (sread_ok _ s_fixedNameSize) by auto.
    unfold readString. rewrite (sread_ok _ 4) by auto. rewrite (sread_ok _ _ _ d) by auto.
    rewrite (sread_ok _ 1) by reflexivity. reflexivity.
Qed.

Lemma one_byte (x : bytes) : length x = 1 -> x = [nth 0 x 0%N].
Proof. destruct x as [|a [|b x]]; cbn; try discriminate. reflexivity. Qed.
Lemma readBlock_sound J s n b s' : failed s = false -> J VEnd 0 <> CH_B -> readBlock J s = Some (n, b, s') ->
  failed s' = false /\ exists bs, raw J n b bs /\ rest s = bs ++ rest s'.
Proof.
  intros F JE. unfold readBlock.
  destruct (sread s 1 (J VStart)) as [st s1] eqn:R1.
  destruct (negb (nth 0 st 0%N =? CH_S)%N && negb (nth 0 st 0%N =? CH_A)%N) eqn:ST; [discriminate|].
  destruct (sread s1 s_fixedNameSize (J VName)) as [nb s2] eqn:R2.
  destruct (N.eqb_spec (nth 0 st 0%N) CH_S) as [ES|ES].
  - destruct (readString J s2) as [v s3] eqn:RS.
    destruct (sread s3 1 (J VEnd)) as [e s4] eqn:R4.
    destruct (N.eqb_spec (nth 0 e 0%N) CH_B) as [EB|EB]; [|discriminate]. intros [= <- <- <-].
    assert (F4 : failed s4 = false).
    { destruct (failed s4) eqn:F4; auto. exfalso. revert R4. unfold sread. destruct (failed s3) eqn:F3.
      - intros [= <- <-]. cbn in EB. auto.
      - destruct (Nat.leb_spec 1 (length (rest s3))); intros [= <- <-]; [discriminate F4|].
        destruct (rest s3); cbn in *; [auto|lia]. }
    split; auto. destruct (sread_inv _ _ _ _ _ R4 F4) as (F3 & E3 & L3).
    unfold readString in RS. destruct (sread s2 4 (J VSize)) as [zb s2'] eqn:RZ.
    destruct (sread_inv _ _ _ _ _ RS F3) as (F2' & E2' & L2').
    destruct (sread_inv _ _ _ _ _ RZ F2') as (F2 & E2 & L2).
    destruct (sread_inv _ _ _ _ _ R2 F2) as (F1 & E1 & L1).
    destruct (sread_inv _ _ _ _ _ R1 F1) as (F0 & E0 & L0).
    exists (CH_S :: nb ++ zb ++ v ++ [CH_B]). split; [constructor; auto|].
    rewrite E0, E1, E2, E2', E3, (one_byte st L0), (one_byte e L3), ES, EB. cbn. now rewrite <- !app_assoc.
  - destruct (N.eqb_spec (nth 0 st 0%N) CH_A) as [EA|EA]; [|discriminate ST].
    destruct (readMatrix J s2) as [m s3] eqn:RM.
    destruct (sread s3 1 (J VEnd)) as [e s4] eqn:R4.
    destruct (N.eqb_spec (nth 0 e 0%N) CH_B) as [EB|EB]; [|discriminate]. intros [= <- <- <-].
    assert (F4 : failed s4 = false).
    { destruct (failed s4) eqn:F4; auto. exfalso. revert R4. unfold sread. destruct (failed s3) eqn:F3.
      - intros [= <- <-]. cbn in EB. auto.
      - destruct (Nat.leb_spec 1 (length (rest s3))); intros [= <- <-]; [discriminate F4|].
        destruct (rest s3); cbn in *; [auto|lia]. }
    split; auto. destruct (sread_inv _ _ _ _ _ R4 F4) as (F3 & E3 & L3).
    unfold readMatrix in RM. destruct (sread s2 4 (J VRows)) as [rb s2'] eqn:RZ.
    destruct (sread s2' 4 (J VCols)) as [cb s2''] eqn:RC.
    destruct (sread s2'' _ (J VData)) as [d s2'''] eqn:RD. pose proof (f_equal fst RM) as X; cbn [fst] in X; pose proof (f_equal snd RM) as Y; cbn [snd] in Y; subst m s3; clear RM.
    destruct (sread_inv _ _ _ _ _ RD F3) as (F2'' & E2'' & L2'').
    destruct (sread_inv _ _ _ _ _ RC F2'') as (F2' & E2' & L2').
    destruct (sread_inv _ _ _ _ _ RZ F2') as (F2 & E2 & L2).
    destruct (sread_inv _ _ _ _ _ R2 F2) as (F1 & E1 & L1).
    destruct (sread_inv _ _ _ _ _ R1 F1) as (F0 & E0 & L0).
    exists (CH_A :: nb ++ rb ++ cb ++ d ++ [CH_B]). split.
    + rewrite <- L2''. apply raw_matrix; auto.
    + rewrite E0, E1, E2, E2', E2'', E3, (one_byte st L0), (one_byte e L3), EA, EB. cbn. now rewrite <- !app_assoc.
Qed.

(** Blocks of the specification are raw blocks. *)
Lemma encode_raw J n b : valid_name n -> fits b -> raw J n b (encode (n, b)).
Proof.
  intros V F. pose proof (name_field n V) as NF. destruct V as [VL _].
  assert (LN : length (repeat 32%N (32 - length n) ++ n) = 32) by (rewrite app_length, repeat_length; lia).
  destruct b as [m|s]; cbn in F; unfold encode.
  - destruct F as (L & R & C & RC). rewrite (app_assoc (repeat _ _)).
    replace (BMatrix m) with (BMatrix (mkM (le_val (u32 (m_rows m))) (le_val (u32 (m_cols m)))
      (m_data m ++ map (J VData) (seq (length (m_data m)) (N.to_nat (le_val (u32 (m_rows m)) * le_val (u32 (m_cols m)) * 8) - length (m_data m)))))).
    + rewrite <- NF at 1. apply raw_matrix; auto. rewrite !u32_val by auto. rewrite L. f_equal. rewrite N.mod_small; lia.
    + rewrite !u32_val by auto. rewrite L, Nat.sub_diag. cbn. rewrite app_nil_r. now destruct m.
  - rewrite (app_assoc (repeat _ _)). rewrite <- NF at 1. apply raw_string; auto. rewrite u32_val by auto. lia.
Qed.
Lemma raw_nonempty J n b bs : raw J n b bs -> bs <> [].
Proof. intros []; discriminate. Qed.

(** ** writing *)
Lemma writeName_ok n : valid_name n -> writeName n = Some (repeat 32%N (32 - length n) ++ n).
Proof. intros V. unfold writeName. now rewrite (proj2 (validateName_spec n) V). Qed.
Lemma writeMatrix_encode n m : valid_name n -> fits (BMatrix m) -> writeMatrixBlock n m = (encode (n, BMatrix m), true).
Proof.
  intros V (L & R & C & RC). unfold writeMatrixBlock. rewrite writeName_ok by auto.
  rewrite !(N.mod_small (m_rows m)), !(N.mod_small (m_cols m)) by auto.
  rewrite (N.mod_small (m_rows m * m_cols m)) by lia. rewrite N.mod_small by auto.
  rewrite <- L, firstn_all. unfold encode. rewrite !u32_le4, <- !app_assoc. reflexivity.
Qed.
Lemma writeString_encode n s : valid_name n -> fits (BString s) -> writeStringBlock n s = (encode (n, BString s), true).
Proof.
  intros V F. cbn in F. unfold writeStringBlock. rewrite writeName_ok by auto. rewrite N.mod_small by auto.
  rewrite Nat2N.id, firstn_all. unfold encode. rewrite u32_le4, <- !app_assoc. reflexivity.
Qed.
Lemma saveAll_encode {V} (w : bytes -> V -> bytes * bool) (f : V -> block) names m :
  (forall n v, In (n, v) m -> w n v = (encode (n, f v), true)) ->
  saveAll w names m = (encode_all (map (fun p => (fst p, f (snd p))) (filter (fun p => selected names (fst p)) m)), true).
Proof.
  induction m as [|[n v] m IH]; intros H; cbn; auto.
  rewrite IH by (intros; apply H; now right). destruct (selected names n); auto.
  rewrite H by now left. unfold encode_all. reflexivity.
Qed.
Lemma encode_all_app a b : encode_all (a ++ b) = encode_all a ++ encode_all b.
Proof. unfold encode_all. now rewrite map_app, concat_app. Qed.
Lemma selected_spec names n : selected names n = true <-> wanted names n.
Proof.
  unfold selected, wanted. destruct names as [|k names].
  - split; auto.
  - rewrite existsb_exists. split.
    + intros (x & H & E). apply bytes_eqb_eq in E. subst. auto.
    + intros [H|H]; [discriminate|]. exists n. split; auto. apply bytes_eqb_refl.
Qed.
Lemma map_filter_comm {A B} (f : A -> B) (p : B -> bool) l : map f (filter (fun x => p (f x)) l) = filter p (map f l).
Proof. induction l as [|x l IH]; cbn; auto. destruct (p (f x)); cbn; now rewrite IH. Qed.
Lemma save_encode names a : (forall n b, In (n, b) (contents a) -> valid_name n /\ fits b) ->
  save names a = (encode_all (filter (fun p => selected names (fst p)) (contents a)), true).
Proof.
  intros H. unfold save.
  rewrite (saveAll_encode writeMatrixBlock BMatrix), (saveAll_encode writeStringBlock BString).
  - unfold contents. rewrite filter_app, encode_all_app. f_equal. f_equal; f_equal.
    + exact (map_filter_comm (fun p => (fst p, BMatrix (snd p))) (fun p => selected names (fst p)) (values a)).
    + exact (map_filter_comm (fun p => (fst p, BString (snd p))) (fun p => selected names (fst p)) (strings a)).
  - intros n v I. destruct (H n (BString v)) as [A B].
    + apply in_or_app. right. apply in_map_iff. exists (n, v). auto.
    + now apply writeString_encode.
  - intros n v I. destruct (H n (BMatrix v)) as [A B].
    + apply in_or_app. left. apply in_map_iff. exists (n, v). auto.
    + now apply writeMatrix_encode.
Qed.

(** ** the load loop *)
Definition store_all (l : list (bytes * block)) (a : archive) : archive :=
  fold_left (fun a p => store a (fst p) (snd p)) l a.
Lemma store_merged n b a : merged [(n, b)] a (store a n b).
Proof.
  intros k. destruct b as [m|s]; cbn; rewrite find_set; destruct (bytes_eqb n k); auto.
Qed.
Lemma merged_app l1 l2 a b c : merged l1 a b -> merged l2 b c -> merged (l1 ++ l2) a c.
Proof.
  intros H1 H2 n. destruct (H1 n) as [A1 B1]. destruct (H2 n) as [A2 B2]. rewrite A2, B2, A1, B1.
  assert (LM : last_matrix (l1 ++ l2) n = or_else (last_matrix l2 n) (last_matrix l1 n)).
  { clear. induction l1 as [|[k b] l1 IH]; cbn; [now destruct last_matrix|]. rewrite IH. destruct (last_matrix l2 n); cbn; auto. }
  assert (LS : last_string (l1 ++ l2) n = or_else (last_string l2 n) (last_string l1 n)).
  { clear. induction l1 as [|[k b] l1 IH]; cbn; [now destruct last_string|]. rewrite IH. destruct (last_string l2 n); cbn; auto. }
  rewrite LM, LS. destruct (last_matrix l2 n), (last_string l2 n); cbn; auto.
Qed.
Lemma merged_refl a : merged [] a a. Proof. intros n. cbn. auto. Qed.
Lemma store_all_merged l a : merged l a (store_all l a).
Proof.
  revert a. induction l as [|[n b] l IH]; intros a; [apply merged_refl|].
  change ((n, b) :: l) with ([(n, b)] ++ l). eapply merged_app; [apply store_merged|]. apply IH.
Qed.

Definition chosen (names : list bytes) (l : list (bytes * block)) := filter (fun p => selected names (fst p)) l.

(** Reading the encoding of a list of blocks whose wanted names are valid, followed by [x]. *)
Lemma load_loop_blocks names J x : forall l fuel k a,
  (forall n b, In (n, b) l -> valid_name n /\ fits b) ->
  load_loop (length l + fuel) J k names (mkI (encode_all l ++ x) false) a =
  load_loop fuel J (length l + k) names (mkI x false) (store_all (chosen names l) a).
Proof.
  induction l as [|[n b] l IH]; intros fuel k a H; auto.
  destruct (H n b) as [V F]; [now left|]. pose proof (encode_raw (J k) n b V F) as RW.
  change (encode_all ((n, b) :: l)) with (encode (n, b) ++ encode_all l). rewrite <- app_assoc.
  cbn [length Nat.add load_loop failed rest orb].
  destruct (encode (n, b) ++ encode_all l ++ x) eqn:E.
  { exfalso. apply app_eq_nil in E as [E _]. apply (raw_nonempty _ _ _ _ RW E). }
  rewrite <- E. clear E. rewrite (readBlock_raw _ _ _ _ _ RW).
  rewrite (proj2 (validateName_spec n) V). cbn [chosen filter fst]. 
  destruct (selected names n); rewrite IH by (intros; apply H; now right).
  - cbn. now rewrite Nat.add_succ_r.
  - now rewrite Nat.add_succ_r.
Qed.
Lemma encode_len nb : 2 <= length (encode nb).
Proof. destruct nb as [n [m|s]]; cbn; repeat (rewrite ?app_length; cbn); lia. Qed.
Lemma encode_all_len l : length l <= length (encode_all l).
Proof. induction l as [|b l IH]; cbn; auto. unfold encode_all in *. rewrite app_length. pose proof (encode_len b). lia. Qed.
Lemma load_encoded J names l x a : (forall n b, In (n, b) l -> valid_name n /\ fits b) ->
  exists fuel, length x < fuel /\ load J names (encode_all l ++ x) a = load_loop fuel J (length l) names (mkI x false) (store_all (chosen names l) a).
Proof.
  intros H. exists (S (length (encode_all l ++ x)) - length l). pose proof (encode_all_len l). rewrite app_length. split; [lia|].
  unfold load. rewrite <- (load_loop_blocks names J x l _ 0 a H) , Nat.add_0_r || idtac.
  rewrite <- (Nat.add_0_r (length l)) at 2. rewrite <- (load_loop_blocks names J x l _ 0 a H). f_equal. rewrite app_length. lia.
Qed.
