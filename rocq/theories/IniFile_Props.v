(** C121: property trees and INI files. *)
From Verif Require Import Bytes Strings_Model PTree_Model InfoFile_Model IniFile_Model.
From Coq Require Import Permutation.
Open Scope nat_scope.

(** ** Specification *)
(** No white space at either end. *)
Definition no_blank_ends (s : bytes) : Prop :=
  (forall c r, s = c :: r -> is_space c = false) /\ (forall c r, s = r ++ [c] -> is_space c = false).
Definition ini_value (v : bytes) : Prop := no_blank_ends v /\ ~ In 10%N v.
Definition ini_key (k : bytes) : Prop :=
  k <> [] /\ no_blank_ends k /\ ~ In 10%N k /\ ~ In 61%N k /\ (forall c r, k = c :: r -> ~ In c [59; 35; 91]%N).
Definition ini_section (n : bytes) : Prop := no_blank_ends n /\ ~ In 10%N n /\ ~ In 93%N n.
(** A list of distinct keys with values. *)
Definition ini_entries (l : list kid) : Prop :=
  NoDup (map fst l) /\ forall k c, In (k, c) l -> pkids c = [] /\ ini_key k /\ ini_value (pdata c).
(** A tree an INI file can hold: values at the top and sections of values, all keys distinct. *)
Definition ini_tree (t : ptree) : Prop :=
  pdata t = [] /\ NoDup (map fst (pkids t)) /\
  forall k c, In (k, c) (pkids t) ->
    (pkids c = [] /\ ini_key k /\ ini_value (pdata c)) \/
    (pkids c <> [] /\ pdata c = [] /\ ini_section k /\ ini_entries (pkids c)).

(** ** Lemmas *)
Lemma lines_nonl l r : ~ In 10%N l -> lines (l ++ NL :: r) = l :: lines r.
Proof.
  induction l as [|c l IH]; intros C; auto. cbn [app lines].
  assert (F : N.eqb c NL = false) by (apply N.eqb_neq; intros ->; apply C; now left). rewrite F, IH; auto. intros I. apply C. now right.
Qed.
Lemma skip_id s : (forall c r, s = c :: r -> is_space c = false) -> skip_ws s = s.
Proof. destruct s as [|c s]; auto. intros H. cbn. now rewrite (H c s eq_refl). Qed.
Lemma trim_id s : no_blank_ends s -> trim_ws s = s.
Proof.
  intros [A B]. unfold trim_ws. rewrite (skip_id s) by auto. rewrite skip_id; [apply rev_involutive|].
  intros c r E. apply (B c (rev r)). rewrite <- (rev_involutive s), E. reflexivity.
Qed.
Lemma break_app c a b : ~ In c a -> break c (a ++ c :: b) = Some (a, b).
Proof.
  induction a as [|x a IH]; intros H; cbn [app break]; [now rewrite N.eqb_refl|].
  assert (F : N.eqb x c = false) by (apply N.eqb_neq; intros ->; apply H; now left). rewrite F, IH; auto. intros I. apply H. now right.
Qed.
Lemma find_kid_none l k : find_kid l k = None <-> ~ In k (map fst l).
Proof.
  induction l as [|[k' c] l IH]; cbn; [tauto|]. destruct (bytes_eqb k' k) eqn:E.
  - apply bytes_eqb_eq in E. split; [discriminate | intros H; exfalso; auto].
  - rewrite IH. split; [intros H [X|X]; [subst; rewrite bytes_eqb_refl in E; discriminate | auto] | tauto].
Qed.
Lemma has_key_spec l k : has_key l k = true <-> In k (map fst l).
Proof.
  unfold has_key. destruct (find_kid l k) eqn:E.
  - split; auto. intros _. destruct (in_dec (list_eq_dec N.eq_dec) k (map fst l)) as [I|I]; auto. apply find_kid_none in I. congruence.
  - apply find_kid_none in E. split; [discriminate | contradiction].
Qed.
Lemma has_key_false l k : has_key l k = false <-> ~ In k (map fst l).
Proof. rewrite <- has_key_spec. destruct (has_key l k); split; congruence. Qed.
Lemma has_dupes_spec l : has_dupes l = false <-> NoDup (map fst l).
Proof.
  induction l as [|[k c] l IH]; cbn; [split; constructor|]. rewrite Bool.orb_false_iff, has_key_false, IH. split.
  - intros [A B]. constructor; auto.
  - intros H. inversion H; auto.
Qed.
Lemma is_leaf_spec c : is_leaf c = true <-> pkids c = [].
Proof. unfold is_leaf. destruct (pkids c); split; congruence. Qed.
Lemma leaf_node c : pkids c = [] -> c = Node (pdata c) [].
Proof. destruct c as [d ks]. cbn. congruence. Qed.

(** ** Reading back *)
Definition iresume (text : bytes) (s : inist) := ini_lines (lines text) s.
Lemma iresume_line l rest s : ~ In 10%N l -> iresume (l ++ NL :: rest) s = match ini_line l s with Some s' => iresume rest s' | None => None end.
Proof. intros H. unfold iresume. rewrite lines_nonl by auto. reflexivity. Qed.
Lemma trim_entry k v : ini_key k -> ini_value v -> trim_ws (k ++ [EQ] ++ v) = k ++ [EQ] ++ v.
Proof.
  intros (NE & [A _] & _) [[_ B] _]. apply trim_id. split.
  - intros c r E. destruct k as [|x k]; [congruence|]. injection E as <- _. eapply A; reflexivity.
  - intros c r E. destruct v as [|x v] using rev_ind.
    + change (k ++ [EQ] ++ []) with (k ++ [EQ]) in E. apply app_inj_tail in E as [_ <-]. reflexivity.
    + rewrite !app_assoc in E. apply app_inj_tail in E as [_ <-]. eapply B; reflexivity.
Qed.
Lemma entry_line k v s : ini_key k -> ini_value v -> ini_line (k ++ [EQ] ++ v) s =
  match cur s with
  | Some (n, l) => if has_key l k then None else Some (mkIni (tops s) (Some (n, l ++ [(k, Node v [])])))
  | None => if has_key (tops s) k then None else Some (mkIni (tops s ++ [(k, Node v [])]) None)
  end.
Proof.
  intros K V. unfold ini_line. rewrite trim_entry by auto. destruct K as (NE & KE & KN & KQ & KF). destruct k as [|c k]; [congruence|].
  cbn [app]. assert (C := KF c k eq_refl). cbn in C.
  assert (F1 : N.eqb c 59 = false) by (apply N.eqb_neq; intuition). assert (F2 : N.eqb c 35 = false) by (apply N.eqb_neq; intuition).
  assert (F3 : N.eqb c LBRACKET = false) by (apply N.eqb_neq; intuition). rewrite F1, F2, F3. cbn [orb].
  change (c :: k ++ EQ :: v) with ((c :: k) ++ EQ :: v). rewrite break_app by auto. rewrite trim_id by auto. rewrite trim_id by apply V. reflexivity.
Qed.
Lemma section_line n s : ini_section n -> ini_line ([LBRACKET] ++ n ++ [RBRACKET]) s =
  if has_key (local_kids s) n then None else Some (mkIni (local_kids s) (Some (n, []))).
Proof.
  intros (E & N & R). unfold ini_line. rewrite trim_id.
  2:{ split; [intros c r X; injection X as <- _; reflexivity|]. intros c r X. rewrite app_assoc in X. apply app_inj_tail in X as [_ <-]. reflexivity. }
  cbn [app]. change (N.eqb LBRACKET 59 || N.eqb LBRACKET 35) with false. change (N.eqb LBRACKET LBRACKET) with true. cbn match.
  rewrite break_app by auto. now rewrite trim_id.
Qed.
Definition leaves (l : list kid) := filter (fun p => is_leaf (snd p)) l.
Definition sections (l : list kid) := filter (fun p => negb (is_leaf (snd p))) l.
Lemma nonl_entry k v : ini_key k -> ini_value v -> ~ In 10%N (k ++ [EQ] ++ v).
Proof. intros (_ & _ & A & _) [_ B] I. apply in_app_or in I as [I|I]; auto. apply in_app_or in I as [[I|[]]|I]; auto. discriminate. Qed.
Lemma regroup k v (b rest : bytes) : (k ++ [EQ] ++ v ++ [NL] ++ b) ++ rest = (k ++ [EQ] ++ v) ++ NL :: b ++ rest.
Proof. now rewrite <- !app_assoc. Qed.
(** top-level entries *)
Lemma read_tops l : forall ds rest, (forall k c, In (k, c) l -> pkids c = [] -> ini_key k /\ ini_value (pdata c)) ->
  NoDup (map fst (ds ++ leaves l)) ->
  write_keys false l = (fst (write_keys false l), true) /\
  iresume (fst (write_keys false l) ++ rest) (mkIni ds None) = iresume rest (mkIni (ds ++ leaves l) None).
Proof.
  induction l as [|[k c] l IH]; intros ds rest H ND; [cbn; rewrite app_nil_r; auto|]. cbn [write_keys leaves filter snd] in *. fold (leaves l) in *.
  destruct (is_leaf c) eqn:L.
  - apply is_leaf_spec in L. destruct (H k c (or_introl eq_refl) L) as [K V].
    assert (HK : has_key ds k = false).
    { apply has_key_false. rewrite map_app in ND. cbn [map fst] in ND. apply NoDup_remove_2 in ND. intros I. apply ND. apply in_or_app. now left. }
    destruct (IH (ds ++ [(k, Node (pdata c) [])]) rest) as [W R]; [intros; apply H; auto; now right | |].
    { rewrite <- app_assoc. cbn [app]. rewrite <- leaf_node by auto. exact ND. }
    destruct (write_keys false l) as [b ok] eqn:WK. cbn [fst] in *. injection W as ->. split; auto. rewrite regroup.
    rewrite iresume_line by now apply nonl_entry. rewrite entry_line by auto. cbn [cur tops]. rewrite HK, R. f_equal. rewrite <- app_assoc. cbn [app].
    now rewrite <- leaf_node by auto.
  - apply IH; auto. intros. apply H; auto. now right.
Qed.
(** entries of a section *)
Lemma read_entries l : forall n ds l0 rest, (forall k c, In (k, c) l -> pkids c = [] /\ ini_key k /\ ini_value (pdata c)) ->
  NoDup (map fst (l0 ++ l)) ->
  write_keys true l = (fst (write_keys true l), true) /\
  iresume (fst (write_keys true l) ++ rest) (mkIni ds (Some (n, l0))) = iresume rest (mkIni ds (Some (n, l0 ++ l))).
Proof.
  induction l as [|[k c] l IH]; intros n ds l0 rest H ND; [cbn; rewrite app_nil_r; auto|]. cbn [write_keys].
  destruct (H k c (or_introl eq_refl)) as (L & K & V). assert (IL : is_leaf c = true) by now apply is_leaf_spec. rewrite IL.
  assert (HK : has_key l0 k = false).
  { apply has_key_false. rewrite map_app in ND. cbn [map fst] in ND. apply NoDup_remove_2 in ND. intros I. apply ND. apply in_or_app. now left. }
  destruct (IH n ds (l0 ++ [(k, Node (pdata c) [])]) rest) as [W R]; [intros; apply H; auto; now right | |].
  { rewrite <- app_assoc. cbn [app]. rewrite <- leaf_node by auto. exact ND. }
  destruct (write_keys true l) as [b ok] eqn:WK. cbn [fst] in *. injection W as ->. split; auto. rewrite regroup.
  rewrite iresume_line by now apply nonl_entry. rewrite entry_line by auto. cbn [cur tops]. rewrite HK, R. f_equal. rewrite <- app_assoc. cbn [app].
  now rewrite <- leaf_node by auto.
Qed.
Lemma read_sections l : forall s rest,
  (forall k c, In (k, c) l -> pkids c <> [] -> pdata c = [] /\ ini_section k /\ ini_entries (pkids c)) ->
  NoDup (map fst (local_kids s ++ sections l)) ->
  write_sections l = (fst (write_sections l), true) /\
  exists s', iresume (fst (write_sections l) ++ rest) s = iresume rest s' /\ local_kids s' = local_kids s ++ sections l.
Proof.
  induction l as [|[k c] l IH]; intros s rest H ND; [cbn; split; auto; exists s; rewrite app_nil_r; auto|].
  cbn [write_sections sections filter snd] in *. fold (sections l) in *. destruct (is_leaf c) eqn:L; cbn [negb] in *.
  - apply IH; auto. intros. apply H; auto. now right.
  - assert (NE : pkids c <> []) by (intros X; apply is_leaf_spec in X; congruence). destruct (H k c (or_introl eq_refl) NE) as (D & SK & EN & EE).
    rewrite (proj2 (has_dupes_spec (pkids c)) EN), D.
    assert (HK : has_key (local_kids s) k = false).
    { apply has_key_false. rewrite map_app in ND. cbn [map fst] in ND. apply NoDup_remove_2 in ND. intros I. apply ND. apply in_or_app. now left. }
    destruct (read_entries (pkids c) k (local_kids s) [] (fst (write_sections l) ++ rest) EE EN) as [W R].
    set (s1 := mkIni (local_kids s) (Some (k, pkids c))).
    assert (LK : local_kids s1 = local_kids s ++ [(k, c)]).
    { unfold local_kids, s1 at 1. cbn [cur tops]. destruct c as [d ks]. cbn [pkids pdata] in *. subst d. destruct ks; [congruence|reflexivity]. }
    destruct (IH s1 rest) as [W' (s' & R' & L')]; [intros; apply H; auto; now right | |].
    { rewrite LK, <- app_assoc. exact ND. }
    destruct (write_keys true (pkids c)) as [b ok]. cbn [fst] in *. injection W as ->. destruct (write_sections l) as [b' ok']. cbn [fst] in *. injection W' as ->.
    split; auto. exists s'. split.
    + replace ((([LBRACKET] ++ k ++ [RBRACKET; NL]) ++ b ++ b') ++ rest) with (([LBRACKET] ++ k ++ [RBRACKET]) ++ NL :: b ++ b' ++ rest)
        by (repeat (rewrite <- ?app_assoc; cbn [app]); reflexivity).
      rewrite iresume_line. 2:{ destruct SK as (_ & N & _). intros I. cbn in I. destruct I as [I|I]; [discriminate|]. apply in_app_or in I as [I|[I|[]]]; [auto|discriminate]. }
      rewrite section_line by auto. rewrite HK. cbn [app] in R. rewrite R. exact R'.
    + rewrite L', LK, <- app_assoc. reflexivity.
Qed.
Lemma leaves_sections l : Permutation (leaves l ++ sections l) l.
Proof.
  induction l as [|p l IH]; auto. cbn [leaves sections filter]. fold (leaves l) (sections l). destruct (is_leaf (snd p)); cbn [negb app]; [now constructor|].
  eapply Permutation_trans; [apply Permutation_sym, Permutation_middle|]. now constructor.
Qed.
Lemma find_perm l1 l2 k : NoDup (map fst l1) -> Permutation l1 l2 -> find_kid l1 k = find_kid l2 k.
Proof.
  intros ND P. induction P as [|[a x] l l' P IH|[a x] [b y] l|l l' l'' P1 IH1 P2 IH2]; auto.
  - cbn in *. inversion ND; subst. now rewrite IH.
  - cbn in *. destruct (bytes_eqb a k) eqn:A, (bytes_eqb b k) eqn:B; auto. apply bytes_eqb_eq in A, B. subst. inversion ND as [|? ? X _]; subst. exfalso. apply X. now left.
  - rewrite IH1 by auto. apply IH2. eapply Permutation_NoDup; [apply Permutation_map, P1|auto].
Qed.

(** ** C121 *)
(** Saving such a tree succeeds, and loading the file gives the same tree with the values at the top before the sections
    (both in their order): so the same value for every path. *)
Theorem ini_roundtrip : forall t old, ini_tree t ->
  exists file, saveIni t = (file, true) /\
    loadIni old file = (Node [] (leaves (pkids t) ++ sections (pkids t)), Ok tt) /\
    forall p, option_map pdata (walk (fst (loadIni old file)) p) = option_map pdata (walk t p).
Proof.
  intros [d ks] old (D & ND & H). cbn [pdata pkids] in *. subst d.
  assert (P := leaves_sections ks).
  assert (ND' : NoDup (map fst (leaves ks ++ sections ks))) by (eapply Permutation_NoDup; [apply Permutation_map, Permutation_sym, P | auto]).
  unfold saveIni. cbn [pdata pkids]. rewrite (proj2 (has_dupes_spec ks) ND).
  destruct (read_tops ks [] (fst (write_sections ks))) as [W R].
  { intros k c I L. destruct (H k c I) as [X|X]; [tauto|]. destruct X as [X _]. contradiction. }
  { cbn [app]. rewrite map_app in ND'. clear - ND'. induction (map fst (leaves ks)) as [|x l IH]; [constructor|]. cbn in ND'. inversion ND' as [|? ? A B]; subst. constructor; auto. intros I. apply A. apply in_or_app. now left. }
  destruct (read_sections ks (mkIni (leaves ks) None) []) as [W' (s' & R' & L')].
  { intros k c I L. destruct (H k c I) as [X|X]; [|tauto]. destruct X as [X _]. contradiction. }
  { exact ND'. }
  destruct (write_keys false ks) as [b ok]. destruct (write_sections ks) as [b' ok']. cbn [fst] in *. injection W' as ->.
  exists (b ++ b'). split; auto.
  assert (LD : loadIni old (b ++ b') = (Node [] (leaves ks ++ sections ks), Ok tt)).
  { unfold loadIni. fold (iresume (b ++ b') (mkIni [] None)). rewrite R. cbn [app]. rewrite app_nil_r in R'. rewrite R'.
    unfold iresume. cbn. now rewrite L'. }
  split; auto. intros p. rewrite LD. cbn [fst]. destruct p as [|k p]; auto. cbn [walk pkids]. now rewrite (find_perm _ ks k ND' P).
Qed.
(** Saving succeeds exactly for trees without data at the root, with distinct keys, whose children are values or sections:
    nodes without data with distinct keys whose children have no children. *)
Lemma write_keys_ok l : snd (write_keys true l) = true <-> forall k c, In (k, c) l -> pkids c = [].
Proof.
  induction l as [|[k c] l IH]; cbn [write_keys]; [split; [intros _ ? ? [] | auto]|]. destruct (is_leaf c) eqn:L.
  - destruct (write_keys true l) as [b ok]. cbn [snd] in *. rewrite IH. split.
    + intros X k' c' [E|I]; [injection E as <- <-; now apply is_leaf_spec | eauto].
    + intros X k' c' I. eapply X. right. eauto.
  - split; [discriminate|]. intros X. assert (Y := X k c (or_introl eq_refl)). apply is_leaf_spec in Y. congruence.
Qed.
Lemma write_sections_ok l : snd (write_sections l) = true <->
  forall k c, In (k, c) l -> pkids c <> [] -> pdata c = [] /\ NoDup (map fst (pkids c)) /\ forall k' c', In (k', c') (pkids c) -> pkids c' = [].
Proof.
  induction l as [|[k c] l IH]; cbn [write_sections]; [split; [intros _ ? ? [] | auto]|]. destruct (is_leaf c) eqn:L.
  - apply is_leaf_spec in L. rewrite IH. split.
    + intros X k' c' [E|I]; [injection E as <- <-; contradiction | eauto].
    + intros X k' c' I. eapply X. right. eauto.
  - assert (NE : pkids c <> []) by (intros X; apply is_leaf_spec in X; congruence).
    destruct (has_dupes (pkids c)) eqn:DU.
    { split; [discriminate|]. intros X. destruct (X k c (or_introl eq_refl) NE) as (_ & N & _). apply has_dupes_spec in N. congruence. }
    apply has_dupes_spec in DU. destruct (pdata c) as [|b0 d0] eqn:D.
    2:{ split; [discriminate|]. intros X. destruct (X k c (or_introl eq_refl) NE) as (Y & _). congruence. }
    pose proof (write_keys_ok (pkids c)) as WK. destruct (write_keys true (pkids c)) as [b ok]. cbn [snd] in WK. destruct ok.
    + destruct (write_sections l) as [b' ok']. cbn [snd] in *. rewrite IH. split.
      * intros X k' c' [E|I] N; [injection E as <- <-; split; auto; split; auto; now apply WK | eauto].
      * intros X k' c' I. eapply X. right. eauto.
    + split; [discriminate|]. intros X. destruct (X k c (or_introl eq_refl) NE) as (_ & _ & Y). apply WK in Y. discriminate.
Qed.
Theorem ini_saves : forall t, snd (saveIni t) = true <->
  pdata t = [] /\ NoDup (map fst (pkids t)) /\
  forall k c, In (k, c) (pkids t) -> pkids c <> [] ->
    pdata c = [] /\ NoDup (map fst (pkids c)) /\ forall k' c', In (k', c') (pkids c) -> pkids c' = [].
Proof.
  intros [d ks]. unfold saveIni. cbn [pdata pkids]. destruct d as [|b0 d]; [|split; [discriminate | intros [X _]; discriminate]].
  destruct (has_dupes ks) eqn:DU.
  - split; [discriminate|]. intros (_ & N & _). apply has_dupes_spec in N. congruence.
  - apply has_dupes_spec in DU. pose proof (write_sections_ok ks) as W. destruct (write_keys false ks) as [b ok]. destruct (write_sections ks) as [b' ok']. cbn [snd] in *.
    rewrite W. tauto.
Qed.
(** Values with blanks at an end change, a key beginning with ';' disappears, and a newline in a value makes another key. *)
Theorem ini_blank_refuted : exists t t', snd (saveIni t) = true /\ loadIni t (fst (saveIni t)) = (t', Ok tt) /\ walk t [str "k"] <> walk t' [str "k"].
Proof. exists (Node [] [(str "k", Node (str " v") [])]). eexists. split; [reflexivity|]. split; [reflexivity|]. discriminate. Qed.
Theorem ini_comment_refuted : exists t, snd (saveIni t) = true /\ pkids t <> [] /\ loadIni t (fst (saveIni t)) = (pempty, Ok tt).
Proof. exists (Node [] [(str ";k", Node (str "v") [])]). split; [reflexivity|]. split; [discriminate | reflexivity]. Qed.
Theorem ini_newline_refuted : exists t t', snd (saveIni t) = true /\ loadIni t (fst (saveIni t)) = (t', Ok tt) /\
  walk t [str "b"] = None /\ walk t' [str "b"] = Some (Node (str "2") []).
Proof. exists (Node [] [(str "a", Node (str "1" ++ [10%N] ++ str "b=2") [])]). eexists. repeat split; reflexivity. Qed.
(** Data beside children cannot be saved, and the file is left incomplete. *)
Theorem ini_mixed_refuted : exists t, saveIni t = ([], false) /\ pdata t = [] /\ NoDup (map fst (pkids t)).
Proof. exists (Node [] [(str "a", Node (str "1") [(str "b", Node (str "2") [])])]). split; [reflexivity|]. split; [reflexivity|]. repeat constructor. intros []. Qed.

Example ini_example : ini_tree (Node [] [(str "s", Node [] [(str "x", Node (str "a = b") []); (str "y", pempty)]); (str "k", Node (str "[v];#") [])]).
Proof.
  assert (NB : forall c s, is_space c = false -> is_space (last (c :: s) 0%N) = false -> no_blank_ends (c :: s)).
  { intros c s A B. split; [intros ? ? E; injection E as <- _; auto|]. intros x r E. rewrite E in B. now rewrite last_last in B. }
  assert (N0 : no_blank_ends []) by (split; intros ? ? E; [discriminate | destruct r; discriminate]).
  repeat split; cbn [pdata pkids map fst].
  - repeat constructor; cbn; intuition discriminate.
  - intros k c [E|[E|[]]]; injection E as <- <-; cbn [pdata pkids].
    + right. split; [discriminate|]. split; [reflexivity|]. split.
      * split; [apply NB; reflexivity|]. cbn. intuition discriminate.
      * split; [repeat constructor; cbn; intuition discriminate|]. intros k c [E|[E|[]]]; injection E as <- <-; (split; [reflexivity|]); split.
        -- split; [discriminate|]. split; [apply NB; reflexivity|]. repeat split; try (cbn; intuition discriminate). intros ? ? E. injection E as <- _. cbn. intuition discriminate.
        -- split; [apply NB; reflexivity|]. cbn. intuition discriminate.
        -- split; [discriminate|]. split; [apply NB; reflexivity|]. repeat split; try (cbn; intuition discriminate). intros ? ? E. injection E as <- _. cbn. intuition discriminate.
        -- split; [exact N0|]. cbn. tauto.
    + left. split; [reflexivity|]. split.
      * split; [discriminate|]. split; [apply NB; reflexivity|]. repeat split; try (cbn; intuition discriminate). intros ? ? E. injection E as <- _. cbn. intuition discriminate.
      * split; [apply NB; reflexivity|]. cbn. intuition discriminate.
Qed.
