(** C122: property trees survive a JSON file. *)
From Verif Require Import Bytes Strings_Model PTree_Model PTree_Update InfoFile_Model InfoFile_Props JsonFile_Model.
Open Scope nat_scope.

(** ** Specification *)
(** UTF-8 as far as the reader checks it: lead bytes followed by the number of continuation bytes they announce. *)
Definition cont (c : byte) : Prop := (128 <= c <= 191)%N.
Inductive utf8_text : bytes -> Prop :=
| u_nil : utf8_text []
| u_1 : forall c s, (c < 128)%N -> utf8_text s -> utf8_text (c :: s)
| u_2 : forall c a s, (192 <= c <= 223)%N -> cont a -> utf8_text s -> utf8_text (c :: a :: s)
| u_3 : forall c a b s, (224 <= c <= 239)%N -> cont a -> cont b -> utf8_text s -> utf8_text (c :: a :: b :: s)
| u_4 : forall c a b d s, (240 <= c <= 247)%N -> cont a -> cont b -> cont d -> utf8_text s -> utf8_text (c :: a :: b :: d :: s).
(** A node has data or children, not both. *)
Definition not_mixed (k : bytes) (c : ptree) : Prop := pdata c = [] \/ pkids c = [].
Definition utf8_node (k : bytes) (c : ptree) : Prop := utf8_text k /\ utf8_text (pdata c).

(** ** Strings *)
Lemma below32 (P : N -> Prop) : (forall n, n < 32 -> P (N.of_nat n)) -> forall c, (c < 32)%N -> P c.
Proof. intros H c L. rewrite <- (N2Nat.id c). apply H. lia. Qed.
Lemma chars_low c r : (c < 32)%N -> p_chars 0 (jesc c ++ r) = consm [c] (p_chars 0 r).
Proof.
  revert c. apply below32. intros n L.
  do 32 (destruct n as [|n]; [reflexivity|]). lia.
Qed.
Lemma jesc_raw c : (32 <= c <= 255)%N -> c <> 34%N -> c <> 47%N -> c <> 92%N -> jesc c = [c].
Proof.
  intros A B C D. unfold jesc.
  replace (N.eqb c 32 || N.eqb c 33 || (35 <=? c) && (c <=? 46) || (48 <=? c) && (c <=? 91) || (93 <=? c) && (c <=? 255))%N with true; auto.
  symmetry. repeat rewrite Bool.orb_true_iff. repeat rewrite Bool.andb_true_iff. rewrite !N.eqb_eq, !N.leb_le. lia.
Qed.
Lemma chars_ascii c r : (c < 128)%N -> p_chars 0 (jesc c ++ r) = consm [c] (p_chars 0 r).
Proof.
  intros L. destruct (N.lt_ge_cases c 32) as [S|S]; [now apply chars_low|].
  destruct (N.eq_dec c 34) as [->|A]; [reflexivity|]. destruct (N.eq_dec c 47) as [->|B]; [reflexivity|]. destruct (N.eq_dec c 92) as [->|C]; [reflexivity|].
  rewrite jesc_raw by (auto; lia). cbn [app p_chars]. rewrite (proj2 (N.eqb_neq c QUOTE)) by auto. rewrite (proj2 (N.eqb_neq c 92)) by auto.
  unfold trailing. rewrite (proj2 (N.leb_le c 127)) by lia. reflexivity.
Qed.
Lemma chars_trail k c r : cont c -> p_chars (S k) (jesc c ++ r) = consm [c] (p_chars k r).
Proof.
  intros [A B]. rewrite jesc_raw by lia. cbn [app p_chars]. unfold is_trail. rewrite (proj2 (N.leb_le 128 c)), (proj2 (N.leb_le c 191)) by auto. reflexivity.
Qed.
Lemma chars_lead c r k : (192 <= c <= 247)%N -> trailing c = Some k -> p_chars 0 (jesc c ++ r) = consm [c] (p_chars k r).
Proof.
  intros A T. rewrite jesc_raw by lia. cbn [app p_chars]. rewrite (proj2 (N.eqb_neq c QUOTE)) by (unfold QUOTE; lia). rewrite (proj2 (N.eqb_neq c 92)) by lia. now rewrite T.
Qed.
Lemma trailing_vals c : ((192 <= c <= 223)%N -> trailing c = Some 1) /\ ((224 <= c <= 239)%N -> trailing c = Some 2) /\ ((240 <= c <= 247)%N -> trailing c = Some 3).
Proof.
  unfold trailing. repeat split; intros H; repeat match goal with |- context [N.leb c ?x] => destruct (N.leb_spec c x); try lia end; reflexivity.
Qed.
Lemma consm_consm a b o : consm a (consm b o) = consm (a ++ b) o.
Proof. destruct o as [[w r]|]; cbn; auto. now rewrite app_assoc. Qed.
Lemma jescape_cons c s r : jescape (c :: s) ++ r = jesc c ++ (jescape s ++ r).
Proof. unfold jescape. cbn [flat_map]. now rewrite app_assoc. Qed.
Lemma p_chars_escape s r : utf8_text s -> p_chars 0 (jescape s ++ QUOTE :: r) = Some (s, r).
Proof.
  induction 1 as [|c s L U IH|c a s L A U IH|c a b s L A B U IH|c a b d s L A B D U IH]; [reflexivity|..]; rewrite !jescape_cons.
  - rewrite chars_ascii, IH by auto. reflexivity.
  - rewrite (chars_lead c _ 1), chars_trail, IH by (auto; try lia; now apply trailing_vals). reflexivity.
  - rewrite (chars_lead c _ 2), !chars_trail, IH by (auto; try lia; now apply trailing_vals). reflexivity.
  - rewrite (chars_lead c _ 3), !chars_trail, IH by (auto; try lia; now apply trailing_vals). reflexivity.
Qed.

(** ** Values *)
Lemma jskip_blanks n s : jskip (blanks n ++ s) = jskip s.
Proof. unfold blanks. induction (4 * n) as [|m IH]; auto. Qed.
Lemma jskip_nl s : jskip (NL :: s) = jskip s.
Proof. reflexivity. Qed.
Lemma jskip_head c s : jspace c = false -> jskip (c :: s) = c :: s.
Proof. intros H. cbn. now rewrite H. Qed.
Definition same_skip (s s' : bytes) : Prop := jskip s = jskip s'.
Lemma p_value_skip f s s' : same_skip s s' -> p_value f s = p_value f s'.
Proof. intros E. unfold same_skip in E. destruct f; auto. cbn [p_value]. now rewrite E. Qed.
Lemma p_members_skip f s s' : same_skip s s' -> p_members f s = p_members f s'.
Proof. intros E. unfold same_skip in E. destruct f; auto. cbn [p_members]. now rewrite E. Qed.
Lemma p_elems_skip f s s' : same_skip s s' -> p_elems f s = p_elems f s'.
Proof. intros E. destruct f; auto. cbn [p_elems]. now rewrite (p_value_skip f s s'). Qed.

Fixpoint jkids (array : bool) (indent : nat) (l : list (bytes * ptree)) : bytes :=
  match l with
  | [] => []
  | (k, c) :: r =>
      blanks (S indent) ++ (if array then [] else jquote k ++ [58; 32]%N) ++ jwrite false (S indent) c ++
      (if is_nil r then [] else [COMMA]) ++ [NL] ++ jkids array indent r
  end.
Lemma jwrite_eq obj n d ks : jwrite obj n (Node d ks) =
  if negb obj && is_nil ks then jquote d
  else let array := negb obj && all_empty_keys ks in
       (if array then [91%N] else [LBRACE]) ++ [NL] ++ jkids array n ks ++ blanks n ++ (if array then [93%N] else [RBRACE]).
Proof.
  cbn [jwrite]. destruct (negb obj && is_nil ks); auto. cbn zeta. do 3 f_equal. set (array := negb obj && all_empty_keys ks). clearbody array.
  induction ks as [|[k c] ks IH]; auto. cbn [jkids]. rewrite IH. reflexivity.
Qed.
(** The tree is fine below the root. *)
Definition fine (t : ptree) : Prop := everywhere not_mixed t /\ everywhere utf8_node t.
Lemma fine_inv d ks : fine (Node d ks) -> forall k c, In (k, c) ks -> fine c /\ not_mixed k c /\ utf8_text k /\ utf8_text (pdata c).
Proof.
  intros [A B] k c I. destruct (everywhere_inv _ _ _ A k c I) as [A1 A2]. destruct (everywhere_inv _ _ _ B k c I) as [[B1 B2] B3]. repeat split; auto.
Qed.
Definition value_good (t : ptree) : Prop := fine t -> not_mixed [] t -> utf8_text (pdata t) ->
  forall n rest fuel, 2 * length (jwrite false n t) <= fuel -> p_value fuel (jwrite false n t ++ rest) = Some (t, rest).
Definition kids_fine (ks : list (bytes * ptree)) : Prop := forall k c, In (k, c) ks -> fine c /\ not_mixed k c /\ utf8_text k /\ utf8_text (pdata c).
Lemma jquote_head s r : jquote s ++ r = QUOTE :: jescape s ++ QUOTE :: r.
Proof. unfold jquote. cbn [app]. rewrite <- app_assoc. reflexivity. Qed.
Lemma len_jwrite n t : 1 <= length (jwrite false n t).
Proof. destruct t as [d ks]. rewrite jwrite_eq. cbn [negb andb]. destruct (is_nil ks); [cbn; lia|]. cbn zeta. rewrite app_length. destruct (all_empty_keys ks); cbn; lia. Qed.
Lemma mixed_any k k' c : not_mixed k c -> not_mixed k' c.
Proof. auto. Qed.
Lemma members_good ks : ks <> [] -> kids_fine ks -> Forall (fun kc => value_good (snd kc)) ks -> forall n rest fuel,
  2 * length (jkids false n ks) <= fuel -> p_members fuel (jkids false n ks ++ blanks n ++ RBRACE :: rest) = Some (ks, rest).
Proof.
  intros NE H F. induction F as [|[k c] ks V F IH]; [congruence|]. intros n rest fuel L. cbn [jkids] in *.
  destruct (H k c (or_introl eq_refl)) as (HF & HM & HK & HD). cbn [snd] in V.
  repeat rewrite <- app_assoc. rewrite (p_members_skip _ _ _ (jskip_blanks _ _)).
  rewrite !app_length in L. cbn [length] in L. assert (LQ : 2 <= length (jquote k)) by (unfold jquote; cbn; rewrite app_length; cbn; lia).
  destruct fuel as [|g]; [lia|]. cbn [p_members].
  rewrite jquote_head. rewrite jskip_head by reflexivity. change (N.eqb QUOTE QUOTE) with true. cbn match.
  rewrite p_chars_escape by auto. cbn [app jskip]. change (jspace 58) with false. cbn match. change (N.eqb 58 58) with true. cbn match.
  match goal with |- context [p_value g (32%N :: ?X)] => rewrite (p_value_skip g (32%N :: X) X) by reflexivity end.
  rewrite (V HF (mixed_any _ _ _ HM) HD) by lia. clear V.
  destruct ks as [|kc ks]; cbn [is_nil] in *.
  - cbn [app jkids]. rewrite jskip_nl, jskip_blanks. rewrite jskip_head by reflexivity. reflexivity.
  - cbn [app]. rewrite jskip_head by reflexivity. change (N.eqb COMMA COMMA) with true. cbn match.
    rewrite (p_members_skip g _ _ (jskip_nl _)). rewrite IH; auto; try discriminate; [|lia].
    intros k' c' I. apply H. now right.
Qed.
Lemma elems_good ks : ks <> [] -> kids_fine ks -> all_empty_keys ks = true -> Forall (fun kc => value_good (snd kc)) ks -> forall n rest fuel,
  2 * length (jkids true n ks) <= fuel -> p_elems fuel (jkids true n ks ++ blanks n ++ 93%N :: rest) = Some (ks, rest).
Proof.
  intros NE H AE F. induction F as [|[k c] ks V F IH]; [congruence|]. intros n rest fuel L. cbn [jkids] in *.
  cbn [all_empty_keys forallb fst] in AE. apply Bool.andb_true_iff in AE as [K AE]. destruct k as [|]; [|discriminate K].
  destruct (H [] c (or_introl eq_refl)) as (HF & HM & HK & HD). cbn [snd] in V.
  repeat rewrite <- app_assoc. rewrite (p_elems_skip _ _ _ (jskip_blanks _ _)). cbn [app].
  rewrite !app_length in L. cbn [length] in L. 
  assert (LB : 4 <= length (blanks (S n))) by (unfold blanks; rewrite repeat_length; lia).
  destruct fuel as [|g]; [lia|]. cbn [p_elems].
  rewrite (V HF (mixed_any _ _ _ HM) HD) by lia. clear V.
  destruct ks as [|kc ks]; cbn [is_nil] in *.
  - cbn [app jkids]. rewrite jskip_nl, jskip_blanks. rewrite jskip_head by reflexivity. reflexivity.
  - cbn [app]. rewrite jskip_head by reflexivity. change (N.eqb COMMA COMMA) with true. cbn match.
    rewrite (p_elems_skip g _ _ (jskip_nl _)). rewrite IH; auto; try discriminate; [|lia].
    intros k' c' I. apply H. now right.
Qed.
Lemma is_nil_spec {A} (l : list A) : is_nil l = true <-> l = [].
Proof. destruct l; split; cbn; congruence. Qed.
(** the head of a list of members or elements is neither a closing bracket nor the end *)
Lemma jkids_head array n ks X : ks <> [] -> exists c r, jskip (jkids array n ks ++ X) = c :: r /\ c <> RBRACE /\ c <> 93%N.
Proof.
  destruct ks as [|[k c] ks]; [congruence|]. intros _. cbn [jkids]. repeat rewrite <- app_assoc. rewrite jskip_blanks. destruct array.
  - cbn [app]. destruct c as [d ks']. rewrite jwrite_eq. cbn [negb andb]. destruct (is_nil ks'); [rewrite jquote_head; eexists; eexists; rewrite jskip_head by reflexivity; split; [reflexivity|]; split; discriminate|].
    cbn zeta. destruct (all_empty_keys ks'); cbn [app]; eexists; eexists; rewrite jskip_head by reflexivity; (split; [reflexivity|]); split; discriminate.
  - rewrite <- app_assoc, jquote_head. eexists; eexists; rewrite jskip_head by reflexivity; split; [reflexivity|]; split; discriminate.
Qed.
Lemma object_good d ks : kids_fine ks -> Forall (fun kc => value_good (snd kc)) ks -> d = [] -> forall n rest fuel obj, obj = true \/ (is_nil ks = false /\ all_empty_keys ks = false) ->
  2 * length (jwrite obj n (Node d ks)) <= fuel -> p_value fuel (jwrite obj n (Node d ks) ++ rest) = Some (Node d ks, rest).
Proof.
  intros H F -> n rest fuel obj O L. rewrite jwrite_eq in *.
  replace (negb obj && is_nil ks) with false in * by (destruct O as [->|[-> _]]; [reflexivity | now rewrite Bool.andb_false_r]).
  replace (negb obj && all_empty_keys ks) with false in * by (destruct O as [->|[_ ->]]; [reflexivity | now rewrite Bool.andb_false_r]).
  cbn zeta in *. rewrite !app_length in L. cbn [length] in L. destruct fuel as [|g]; [lia|]. cbn [app p_value].
  rewrite jskip_head by reflexivity. change (N.eqb LBRACE LBRACE) with true. cbn match. rewrite jskip_nl.
  rewrite <- !app_assoc. cbn [app]. destruct ks as [|kc ks].
  - cbn [jkids app]. rewrite jskip_blanks. rewrite jskip_head by reflexivity. reflexivity.
  - destruct (jkids_head false n (kc :: ks) (blanks n ++ RBRACE :: rest) ltac:(discriminate)) as (c & r & E & NB & _). rewrite E.
    rewrite (proj2 (N.eqb_neq c RBRACE)) by auto. rewrite (p_members_skip g _ _ (jskip_nl _)). rewrite members_good; auto; [discriminate | lia].
Qed.
Lemma all_values t : value_good t.
Proof.
  induction t as [d ks IH] using ptree_ind'. intros HF HM HD n rest fuel L. pose proof (fine_inv d ks HF) as H.
  destruct (is_nil ks) eqn:NK.
  - apply is_nil_spec in NK. subst ks. rewrite jwrite_eq in *. cbn [negb andb is_nil pdata] in *. rewrite jquote_head.
    unfold jquote in L. cbn in L. destruct fuel as [|g]; [lia|]. cbn [p_value]. rewrite jskip_head by reflexivity.
    change (N.eqb QUOTE LBRACE) with false. change (N.eqb QUOTE 91) with false. change (N.eqb QUOTE QUOTE) with true. cbn match. now rewrite p_chars_escape.
  - assert (NE : ks <> []) by (intros ->; discriminate NK).
    assert (D : d = []) by (destruct HM as [X|X]; cbn in X; [auto | contradiction]). destruct (all_empty_keys ks) eqn:AE.
    2:{ apply object_good; auto. }
    subst d. rewrite jwrite_eq in *. cbn [negb andb] in *. rewrite NK, AE in *. cbn zeta in *. rewrite !app_length in L. cbn [length] in L.
    destruct fuel as [|g]; [lia|]. cbn [app p_value]. rewrite jskip_head by reflexivity. change (N.eqb 91 LBRACE) with false. change (N.eqb 91 91) with true. cbn match.
    rewrite jskip_nl. rewrite <- !app_assoc. cbn [app]. destruct (jkids_head true n ks (blanks n ++ 93%N :: rest) NE) as (c & r & E & _ & NB). rewrite E.
    rewrite (proj2 (N.eqb_neq c 93)) by auto. rewrite (p_elems_skip g _ _ (jskip_nl _)). rewrite elems_good; auto. lia.
Qed.

(** ** C122 *)
Lemma verify_spec t : verify t = true <-> not_mixed [] t /\ everywhere not_mixed t.
Proof.
  induction t as [d ks IH] using ptree_ind'. cbn [verify]. rewrite Bool.andb_true_iff, Bool.orb_true_iff, !is_nil_spec, forallb_forall. unfold not_mixed at 1. cbn [pdata pkids].
  rewrite Forall_forall in IH. split.
  - intros [A B]. split; auto. constructor. intros k c I. specialize (B _ I). cbn [snd] in B. apply (IH _ I) in B as [B1 B2]. auto.
  - intros [A B]. split; auto. intros [k c] I. cbn [snd]. apply (IH _ I). cbn [snd]. exact (everywhere_inv _ _ _ B k c I).
Qed.
(** Saving succeeds exactly if the root has no data and no node has data and children; otherwise the file is left empty. *)
Theorem json_saves : forall t,
  (snd (saveJson t) = true <-> pdata t = [] /\ everywhere not_mixed t) /\ (snd (saveJson t) = false -> fst (saveJson t) = []).
Proof.
  intros t. unfold saveJson. destruct (is_nil (pdata t) && verify t) eqn:E; cbn [fst snd].
  - apply Bool.andb_true_iff in E as [A B]. apply is_nil_spec in A. apply verify_spec in B as [_ B]. split; [tauto | discriminate].
  - split; auto. split; [discriminate|]. intros [A B]. exfalso. assert (V : verify t = true) by (apply verify_spec; split; auto; now left).
    rewrite V, A in E. discriminate.
Qed.
(** If moreover all texts are UTF-8, loading the file gives the tree back. *)
Theorem json_roundtrip : forall t old, pdata t = [] -> everywhere not_mixed t -> everywhere utf8_node t ->
  exists file, saveJson t = (file, true) /\ loadJson old file = (t, Ok tt).
Proof.
  intros [d ks] old D M U. cbn [pdata] in D. subst d. unfold saveJson. assert (V : verify (Node [] ks) = true) by (apply verify_spec; split; auto; now left).
  rewrite V. cbn [pdata is_nil andb]. eexists. split; [reflexivity|]. unfold loadJson.
  assert (SB : skip_bom (jwrite true 0 (Node [] ks) ++ [NL]) = jwrite true 0 (Node [] ks) ++ [NL]) by (rewrite jwrite_eq; reflexivity).
  rewrite SB. rewrite object_good; auto.
  - exact (fine_inv [] ks (conj M U)).
  - apply Forall_forall. intros. apply all_values.
  - rewrite app_length. cbn. lia.
Qed.
(** Text that is not UTF-8 is saved but cannot be loaded. *)
Theorem json_encoding_refuted : exists t, snd (saveJson t) = true /\ forall old, loadJson old (fst (saveJson t)) = (old, ParseError).
Proof. exists (Node [] [(str "k", Node [255%N] [])]). split; [reflexivity|]. intros old. reflexivity. Qed.
(** A tree that setString can build - data beside children - is not saved; the old content of the file is lost. *)
Theorem json_mixed_refuted : exists t, pdata t = [] /\ saveJson t = ([], false).
Proof. exists (Node [] [(str "a", Node (str "1") [(str "b", Node (str "2") [])])]). split; reflexivity. Qed.
Example json_example : let t := Node [] [(str "a", Node [] [([], Node (str "1") []); ([], Node [] [(str "x/", Node [195; 164; 0; 10; 34]%N [])])]); ([], pempty); ([], pempty)] in
  pdata t = [] /\ everywhere not_mixed t /\ everywhere utf8_node t.
Proof.
  assert (A : forall s, forallb (fun c => N.ltb c 128) s = true -> utf8_text s).
  { induction s as [|c s IH]; intros H; [constructor|]. cbn in H. apply Bool.andb_true_iff in H as [H1 H2]. apply u_1; [now apply N.ltb_lt | auto]. }
  split; [reflexivity|]. split; repeat (apply ev || apply Forall_nil || apply Forall_cons || split); cbn [fst snd pdata]; try (now left); try (now right); try (apply A; reflexivity).
  apply u_2; [lia | unfold cont; lia | apply A; reflexivity].
Qed.
