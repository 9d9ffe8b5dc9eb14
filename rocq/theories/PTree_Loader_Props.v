(** C50, C51, C94: configuration files. *)
From Verif Require Import PTree_Model PTree_Spec PTree_Proofs PTree_Loader_Model PTree_Loader_Spec PTree_Loader_Proofs PTree_Props Strings_Model Strings_Proofs.
Open Scope nat_scope.

Lemma den_parents : denotes (view_root []) PARENTS [PARENTS].
Proof.
  refine (den_rel [] [PARENTS] [] _ _ _); [|discriminate|auto].
  repeat constructor; try discriminate; intros X; cbn in X; intuition discriminate.
Qed.
(** The tree as it is merged: the reader of the parents key stores an empty one if there is none. *)
Definition with_parents (t : ptree) : ptree :=
  match getX parse_string t (view_root []) PARENTS with Ok _ => t | _ => put_comps t [PARENTS] [] end.
Lemma parents_of_spec oob t : oob <> SLASH -> parents_of oob t = Some (with_parents t, parents_spec t).
Proof.
  intros O. unfold parents_of, parents_spec, with_parents.
  assert (CH : forall c, exists v t', getX_or_set parse_string print_string c (view_root []) PARENTS [] = Ok (t', v) /\
     v = match getX parse_string c (view_root []) PARENTS with Ok v => v | _ => [] end /\
     t' = match getX parse_string c (view_root []) PARENTS with Ok _ => c | _ => put_comps c [PARENTS] [] end).
  { intros c. rewrite (getX_denotes parse_string _ _ _ _ den_parents). unfold getX_or_set, imp_get_or_set.
    rewrite (getopt_denotes parse_string _ _ _ _ den_parents).
    pose proof (setX_denotes print_string c (view_root []) PARENTS [PARENTS] [] den_parents) as ST. unfold setX in ST. rewrite ST.
    destruct (value_at c [PARENTS]) as [d|] eqn:V; cbn [parse_string]; eauto. }
  assert (GC : forall x, getChildren oob x (view_root []) = Ok (pkids x)).
  { intros x. unfold getChildren, imp_getChildren. change (view_root []) with [SLASH]. cbv beta iota. rewrite N.eqb_refl.
    destruct (N.eqb oob SLASH) eqn:Q; [apply N.eqb_eq in Q; congruence|reflexivity]. }
  destruct (CH t) as (v & t' & E1 & E2 & E3). rewrite E1.
  assert (FC : match pkids t' with [] => [] | (_, c) :: _ => match getX parse_string c (view_root []) PARENTS with Ok v => v | _ => [] end end =
               match t with Node _ ((_, c) :: _) => match getX parse_string c (view_root []) PARENTS with Ok v => v | _ => [] end | Node _ [] => [] end).
  { destruct t as [d ks]. assert (T : t' = Node d ks \/ t' = put_comps (Node d ks) [PARENTS] []).
    { rewrite E3. destruct (getX parse_string (Node d ks) (view_root []) PARENTS); auto. }
    destruct T as [->| ->]; [reflexivity|]. cbn [put_comps pkids pdata]. destruct ks as [|[k c] ks]; [reflexivity|].
    cbn [set_kid]. destruct (bytes_eqb k PARENTS); [|reflexivity]. cbn [pkids].
    rewrite !(getX_denotes parse_string _ _ _ _ den_parents). destruct c as [dc kc]. reflexivity. }
  assert (K : v = [] -> match getChildren oob t' (view_root []) with
                | Ok ((_, c) :: _) => match getX_or_set parse_string print_string c (view_root []) PARENTS [] with
                                      | Ok (_, ps) => Some (t', ps)
                                      | _ => None
                                      end
                | Ok [] => Some (t', [])
                | _ => None
                end = Some (t', match t with Node _ ((_, c) :: _) => match getX parse_string c (view_root []) PARENTS with Ok v => v | _ => [] end | Node _ [] => [] end)).
  { intros _. rewrite GC, <- FC. destruct (pkids t') as [|[k c] ks]; [reflexivity|].
    destruct (CH c) as (vc & tc & F1 & F2 & _). rewrite F1, F2. reflexivity. }
  destruct v as [|b v].
  - rewrite K by auto. rewrite E3. destruct (getX parse_string t (view_root []) PARENTS) as [[|c r]| | | | | |]; try reflexivity. discriminate.
  - rewrite E3. destruct (getX parse_string t (view_root []) PARENTS) as [[|c r]| | | | | |]; try discriminate. rewrite E2. reflexivity.
Qed.
(** The names a file's tree lists, separated by ','. *)
Definition names_of (ps : bytes) : list bytes := match ps with [] => [] | _ => split_commas ps end.
Definition parent_names (t : ptree) : list bytes := names_of (parents_spec t).
Fixpoint comma_list (l : list bytes) : bytes := match l with [] => [] | [x] => x | x :: r => x ++ 44%N :: comma_list r end.
Lemma split_commas_spec s : split_commas s <> [] /\ comma_list (split_commas s) = s /\ Forall (fun n => ~ In 44%N n) (split_commas s).
Proof.
  induction s as [|c s (N & E & F)]; cbn [split_commas]; [repeat split; [discriminate|repeat constructor; auto]|].
  destruct (N.eqb c COMMA) eqn:Q.
  - apply N.eqb_eq in Q. subst c. split; [discriminate|]. split; [|constructor; auto].
    destruct (split_commas s) as [|h t]; [congruence|]. change (comma_list ([] :: h :: t)) with (44%N :: comma_list (h :: t)). rewrite E. auto.
  - apply N.eqb_neq in Q. destruct (split_commas s) as [|h t] eqn:S; [congruence|]. split; [discriminate|]. inversion F as [|? ? F1 F2]; subst.
    split; [destruct t; cbn [comma_list app]; auto|]. constructor; auto. intros [X|X]; [apply Q; exact X|auto].
Qed.

(** ** C50 *)
Section Load.
  Variables (fs : bytes -> option ptree) (resolve : bytes -> bytes -> bytes) (oob : byte).
  Notation readFiles := (readFiles fs resolve oob).
  Notation loadCfg := (loadConfigFileWithParents fs resolve oob).
  (** a fuel that suffices once suffices always, with the same result *)
  Lemma readFiles_more f : forall l rel s, readFiles f l rel s <> LFuel -> readFiles (S f) l rel s = readFiles f l rel s.
  Proof.
    induction f as [|f IHf]; [intros; cbn in *; congruence|]. intros l rel.
    induction l as [|n l IHl]; intros s; rewrite !readFiles_S; cbn [go]; auto.
    destruct ((match n with [] => true | _ => false end) || mem n (ignore s)); [intros H; specialize (IHl s); rewrite !readFiles_S in IHl; auto|].
    set (s0 := mkS (n :: ignore s) (conf s) (trace s)).
    assert (L : loadCfg (readFiles f) n rel s0 <> LFuel -> loadCfg (readFiles (S f)) n rel s0 = loadCfg (readFiles f) n rel s0).
    { unfold loadConfigFileWithParents. cbn zeta. destruct (fs _) as [pt|]; auto. destruct (parents_of oob pt) as [[pt' ps]|]; auto.
      destruct (match ps with [] => [] | _ => split_commas ps end) as [|x nms]; auto. intros H. rewrite IHf; auto.
      intros X. rewrite X in H. auto. }
    intros H. rewrite L; [|intros X; rewrite X in H; auto].
    destruct (loadCfg (readFiles f) n rel s0) as [s1| | |]; auto. specialize (IHl s1). rewrite !readFiles_S in IHl. auto.
  Qed.
  Lemma readFiles_fuel f g l rel s : f <= g -> readFiles f l rel s <> LFuel -> readFiles g l rel s = readFiles f l rel s.
  Proof. induction 1 as [|g H IH]; auto. intros N. rewrite readFiles_more; [auto|]. rewrite IH; auto. Qed.

  (** what is opened and applied *)
  (** a name that ends in an exclamation mark: only existing values are updated *)
  Definition updates_only (n : bytes) : bool := bytes_eqb (skipn (length n - 1) n) (str "!").
  Lemma updates_only_ends n : ends_with BANG n = updates_only n.
  Proof.
    clear. unfold updates_only, ends_with. destruct n as [|c n]; [reflexivity|]. cbn [length]. rewrite Nat.sub_succ, Nat.sub_0_r.
    assert (X : forall n c, skipn (length n) (c :: n) = [last (c :: n) 0%N]).
    { clear. induction n as [|d n IH]; intros c; [reflexivity|]. cbn [length skipn]. rewrite IH. reflexivity. }
    rewrite X. generalize (last (c :: n) 0%N). intros d. change (str "!") with [33%N]. unfold BANG.
    destruct (bytes_eqb [d] [33%N]) eqn:B.
    - apply bytes_eqb_eq in B. injection B as ->. reflexivity.
    - apply N.eqb_neq. intros ->. rewrite bytes_eqb_refl in B. discriminate.
  Qed.
  Definition strip_bang (n : bytes) : bytes := if updates_only n then firstn (length n - 1) n else n.
  Definition source (files : list bytes) (n : bytes) (t : ptree) : Prop :=
    exists rel, fs (resolve (strip_bang n) rel) = Some t /\
      ((rel = [] /\ In n files) \/ exists t0, fs rel = Some t0 /\ In n (parent_names t0)).
  Definition event_ok (files : list bytes) (e : event) : Prop :=
    match e with
    | Opened n ps => exists t, source files n t /\ ps = parent_names t
    | Applied n t' u => (exists t, source files n t /\ t' = with_parents t) /\ u = updates_only n
    end.
  Hypothesis oob_ok : oob <> SLASH.
  Lemma readFiles_events files f : forall l rel s s',
    ((rel = [] /\ forall n, In n l -> In n files) \/ (exists t0, fs rel = Some t0 /\ forall n, In n l -> In n (parent_names t0))) ->
    readFiles f l rel s = LOk s' -> Forall (event_ok files) (trace s) -> Forall (event_ok files) (trace s').
  Proof.
    induction f as [|f IHf]; [discriminate|]. intros l rel.
    induction l as [|n l IHl]; intros s s' HL E F; rewrite readFiles_S in E; cbn [go] in E.
    { injection E as <-. auto. }
    assert (HL' : (rel = [] /\ forall n, In n l -> In n files) \/ (exists t0, fs rel = Some t0 /\ forall n, In n l -> In n (parent_names t0))).
    { destruct HL as [[? H]|(t0 & ? & H)]; [left; split; auto; intros; apply H; right; auto|right; exists t0; split; auto; intros; apply H; right; auto]. }
    destruct ((match n with [] => true | _ => false end) || mem n (ignore s)).
    { apply (IHl s s'); auto. }
    destruct (loadCfg (readFiles f) n rel (mkS (n :: ignore s) (conf s) (trace s))) as [s1| | |] eqn:L; try discriminate.
    apply (IHl s1 s'); auto. unfold loadConfigFileWithParents in L. cbn [ignore conf trace] in L.
    rewrite updates_only_ends in L. fold (strip_bang n) in L. destruct (fs (resolve (strip_bang n) rel)) as [pt|] eqn:FS; [|discriminate].
    rewrite (parents_of_spec oob pt oob_ok) in L. fold (names_of (parents_spec pt)) in L. fold (parent_names pt) in L.
    assert (SRC : source files n pt).
    { exists rel. split; auto. destruct HL as [[? H]|(t0 & ? & H)]; [left; split; auto; apply H; left; auto|right; exists t0; split; auto; apply H; left; auto]. }
    assert (F1 : Forall (event_ok files) (trace s ++ [Opened n (parent_names pt)])).
    { apply Forall_app. split; auto. constructor; auto. exists pt. auto. }
    match type of L with match ?X with _ => _ end = _ => destruct X as [s2| | |] eqn:R; try discriminate end.
    destruct (updateOrSet _ _ _); [|discriminate]. injection L as <-. cbn [trace]. apply Forall_app. split.
    - destruct (parent_names pt) as [|x nms] eqn:PN; [injection R as <-; auto|]. rewrite <- PN in *.
      eapply IHf; [|exact R|exact F1]. right. exists pt. split; auto.
    - constructor; auto. split; auto. exists pt. auto.
  Qed.
  Lemma readFiles_app f : forall l1 l2 rel s, readFiles (S f) (l1 ++ l2) rel s = match readFiles (S f) l1 rel s with LOk s1 => readFiles (S f) l2 rel s1 | e => e end.
  Proof.
    induction l1 as [|n l1 IH]; intros l2 rel s; rewrite !readFiles_S; cbn [go app]; [rewrite readFiles_S; auto|].
    destruct ((match n with [] => true | _ => false end) || mem n (ignore s)); [specialize (IH l2 rel s); rewrite !readFiles_S in IH; auto|].
    destruct (loadCfg _ _ _ _) as [s1| | |]; auto. specialize (IH l2 rel s1). rewrite !readFiles_S in IH. auto.
  Qed.
End Load.

(** For every file system with finitely many files and every parent relation the loading ends; the result does not depend
    on the bound. *)
Theorem load_terminates : forall fs resolve oob files D, oob <> 47%N -> (forall path, fs path <> None -> In path D) ->
  exists bound result, result <> LFuel /\ forall fuel, bound <= fuel -> readFilesAndMerge fs resolve oob fuel files = result.
Proof.
  intros fs resolve oob files D O FIN.
  set (U := files ++ flat_map (fun path => match fs path with Some t => parent_names t | None => [] end) D).
  assert (T : readFilesAndMerge fs resolve oob (S (length U)) files <> LFuel).
  { unfold readFilesAndMerge. apply (readFiles_terminates fs resolve oob U).
    - intros full pt pt' ps n F P I. rewrite (parents_of_spec oob pt O) in P. injection P as <- <-.
      destruct (parents_spec pt) as [|c r] eqn:E; [cbn in I; destruct I as [<-|[]]; auto|]. right. unfold U. apply in_or_app. right.
      apply in_flat_map. exists full. split; [apply FIN; rewrite F; discriminate|]. rewrite F. unfold parent_names, names_of. rewrite E. auto.
    - intros n I. right. apply in_or_app. auto.
    - unfold left_over. cbn [ignore session0]. assert (X : forall l : list bytes, length (filter (fun n => negb (mem n [])) l) <= length l).
      { induction l as [|x l IH]; cbn [filter length]; auto. destruct (negb (mem x [])); cbn [length]; lia. }
      specialize (X U). lia. }
  exists (S (length U)), (readFilesAndMerge fs resolve oob (S (length U)) files). split; auto.
  intros fuel H. unfold readFilesAndMerge in *. apply readFiles_fuel; auto.
Qed.
Print Assumptions load_terminates.

(** A successful loading: each name is opened and merged at most once, every given name is merged, every parent is opened
    before its child is merged, the trees merged are those of the files, and the result is the merge in this order. *)
Theorem load_order_once_partial : forall fs resolve oob fuel files s, oob <> 47%N ->
  readFilesAndMerge fs resolve oob fuel files = LOk s ->
  NoDup (opened (trace s)) /\ NoDup (applied (trace s)) /\
  (forall n, In n files -> n <> [] -> In n (applied (trace s))) /\
  Forall (event_ok fs resolve files) (trace s) /\
  conf s = merged None (trace s) /\
  (forall a n t u b, trace s = a ++ Applied n t u :: b ->
     exists ps, In (Opened n ps) a /\ forall p, In p ps -> p <> [] -> In p (opened a) /\ In p (applied (trace s))).
Proof.
  intros fs resolve oob fuel files s O E. unfold readFilesAndMerge in E.
  destruct (readFiles_ok fs resolve oob fuel files [] session0 s [] I E) as (ext & [T IG OR CF] & A).
  cbn [trace session0 app] in T. cbn [ignore session0] in *. specialize (OR [] (fun n => conj (fun x => x) (fun x => x))). rewrite T.
  destruct (load_order_fresh _ _ _ OR) as (_ & ND1 & ND2 & _). pose proof (load_order_opened_applied _ _ _ OR) as OA.
  split; auto. split; auto. split; [|split; [|split]].
  - intros n Hn Nn. apply OA. destruct (proj1 (IG n) (A n Hn Nn)) as [[]|X]; auto.
  - rewrite <- T. eapply (readFiles_events fs resolve oob O files fuel); [|exact E|constructor]. left. split; auto.
  - destruct (CF None eq_refl) as [[-> C]|(c & C & M)]; [cbn; auto|congruence].
  - intros a n t u b Ea. assert (OP : exists ps, In (Opened n ps) a).
    { assert (G : forall prog seen l, load_order prog seen l -> forall a b, l = a ++ Applied n t u :: b -> exists ps, In (Opened n ps) a).
      { clear. induction 1 as [|prog seen m ps inner t' u' rest N1 N2 HP L1 IH1 HPs L2 IH2]; intros a b E; [destruct a; discriminate|].
        destruct a as [|e a]; [discriminate|]. cbn [app] in E. injection E as <- E.
        assert (Cases : (exists b', inner = a ++ Applied n t u :: b') \/ m = n \/ (exists a', a = inner ++ Applied m t' u' :: a' /\ rest = a' ++ Applied n t u :: b)).
        { clear - E. revert a E. induction inner as [|x inner IH]; intros a E.
          - destruct a as [|y a]; cbn [app] in E; [injection E as <- _ _ _; auto|]. injection E as <- ->. right; right. exists a. auto.
          - destruct a as [|y a]; cbn [app] in E; [injection E as -> <-; left; exists inner; auto|]. injection E as <- E.
            destruct (IH a E) as [(b' & ->)|[X|(a' & -> & X)]]; [left; exists b'; auto|right; left; auto|right; right; exists a'; auto]. }
        destruct Cases as [(b' & Ei)|[->|(a' & -> & Er)]].
        - destruct (IH1 _ _ Ei) as (qs & Q). exists qs. right. auto.
        - exists ps. left. auto.
        - destruct (IH2 _ _ Er) as (qs & Q). exists qs. right. apply in_or_app. right. right. auto. }
      eapply G; [exact OR|exact Ea]. }
    destruct OP as (ps & OP). exists ps. split; auto. intros p Hp Np.
    assert (IE : In (Opened n ps) ext) by (rewrite Ea; apply in_or_app; auto).
    destruct (load_order_opened_before _ _ _ OR a n t u b ps Ea IE p Hp Np) as [[]|X]. split; auto.
    apply OA. rewrite Ea, opened_app. apply in_or_app. auto.
Qed.
Print Assumptions load_order_once_partial.
(** Without cycles the parents are merged before the child. *)
Theorem load_parents_first_partial : forall fs resolve oob fuel files s (rank : bytes -> nat), oob <> 47%N ->
  readFilesAndMerge fs resolve oob fuel files = LOk s ->
  (forall n ps p, In (Opened n ps) (trace s) -> In p ps -> rank p < rank n) ->
  forall a n t u b, trace s = a ++ Applied n t u :: b ->
    forall ps p, In (Opened n ps) (trace s) -> In p ps -> p <> [] -> In p (applied a).
Proof.
  intros fs resolve oob fuel files s rank O E R a n t u b Ea ps p HI Hp Np. unfold readFilesAndMerge in E.
  destruct (readFiles_ok fs resolve oob fuel files [] session0 s [] I E) as (ext & [T IG OR CF] & A).
  cbn [trace session0 app] in T. cbn [ignore session0] in *. specialize (OR [] (fun n => conj (fun x => x) (fun x => x))). rewrite T in *.
  destruct (load_order_acyclic rank [] [] ext OR (fun n ps H p Hp => R n ps p H Hp) ltac:(intros q qs []) I [] ltac:(intros q []) a n t u b ps Ea HI p Hp Np) as [[]|X]; auto.
Qed.
Print Assumptions load_parents_first_partial.
(** Earlier files (with all they pull in) are merged before anything a later file adds. *)
Theorem load_files_in_order : forall fs resolve oob fuel l1 l2 s, oob <> 47%N ->
  readFilesAndMerge fs resolve oob fuel (l1 ++ l2) = LOk s ->
  exists s1 later, readFilesAndMerge fs resolve oob fuel l1 = LOk s1 /\ trace s = trace s1 ++ later /\
    (forall n, In n l1 -> n <> [] -> In n (applied (trace s1))) /\
    (forall n, In n l2 -> n <> [] -> In n (applied (trace s1)) \/ In n (applied later)).
Proof.
  intros fs resolve oob fuel l1 l2 s O E. destruct fuel as [|f]; [discriminate|]. pose proof E as E0. unfold readFilesAndMerge in E.
  rewrite readFiles_app in E. destruct (readFiles fs resolve oob (S f) l1 [] session0) as [s1| | |] eqn:E1; try discriminate.
  destruct (readFiles_ok fs resolve oob (S f) l2 [] s1 s [] I E) as (ext & [T IG OR CF] & A).
  exists s1, ext. split; auto. split; auto. split.
  - eapply load_order_once_partial; eauto.
  - intros n Hn Nn. destruct (load_order_once_partial _ _ _ _ _ _ O E0) as (_ & _ & H & _). 
    assert (X : In n (applied (trace s))) by (apply H; [apply in_or_app|]; auto). rewrite T, applied_app in X. apply in_app_or in X. auto.
Qed.
Print Assumptions load_files_in_order.

(** The claim says file; the code only compares the names as written.  [remove_filename] of ordinary absolute paths: *)
Fixpoint remove_filename (s : bytes) : bytes :=
  match s with [] => [] | c :: r => if existsb (N.eqb 47) r then c :: remove_filename r else if N.eqb c 47 then [] else [] end.
Definition demo_resolve (fs : bytes -> option ptree) : bytes -> bytes -> bytes :=
  let e := fun p => match fs p with Some _ => true | None => false end in
  resolveFullFilePath e e remove_filename [str "/etc"] [].
Definition leaf (k v : bytes) : bytes * ptree := (k, Node v []).
Definition demo_fs (files : list (bytes * ptree)) : bytes -> option ptree := find_kid files.
(** The same file under two spellings is opened and merged twice. *)
Theorem load_same_file_twice_refuted : exists fs s,
  readFilesAndMerge fs (demo_resolve fs) 0%N 3 [str "a"; str "/etc/a"] = LOk s /\
  demo_resolve fs (str "a") [] = demo_resolve fs (str "/etc/a") [] /\ applied (trace s) = [str "a"; str "/etc/a"].
Proof.
  exists (demo_fs [(str "/etc/a", Node [] [leaf (str "k") (str "1")])]). eexists. split; [vm_compute; reflexivity|]. vm_compute. auto.
Qed.
(** Two different files with the same relative name: the second is never read, so a child lacks its parent. *)
Theorem load_relative_parent_skipped_refuted : exists fs s,
  readFilesAndMerge fs (demo_resolve fs) 0%N 5 [str "d1/c"; str "d2/c"] = LOk s /\
  fs (demo_resolve fs (str "./base") (str "/etc/d2/c")) = Some (Node [] [leaf (str "k2") (str "2")]) /\
  applied (trace s) = [str "./base"; str "d1/c"; str "d2/c"] /\
  exists t, conf s = Some t /\ getX parse_string t (view_root []) (str "k1") = Ok (str "1") /\ doesKeyExist t (view_root []) (str "k2") = false.
Proof.
  exists (demo_fs [(str "/etc/d1/c", Node [] [leaf (str "parents") (str "./base")]); (str "/etc/d2/c", Node [] [leaf (str "parents") (str "./base")]);
                   (str "/etc/d1/./base", Node [] [leaf (str "k1") (str "1")]); (str "/etc/d2/./base", Node [] [leaf (str "k2") (str "2")])]).
  eexists. split; [vm_compute; reflexivity|]. split; [vm_compute; reflexivity|]. split; [vm_compute; reflexivity|].
  eexists. split; [vm_compute; reflexivity|]. vm_compute. auto.
Qed.
(** *** C50: the last file that has a key decides its value.  The value of a key after a successful load is the one of the last tree that was merged
    (the order is the subject of load_order_once_partial and load_parents_first_partial), whether its name ends in an exclamation mark or not.  For
    files without array elements, repeated keys, or keys with a dot or slash in them (see C48 for those). *)
Definition last_value (l : list event) (ns key : bytes) : res bytes :=
  fold_left (fun acc e => match e with
                          | Applied _ t _ => match getX parse_string t ns key with Ok d => Ok d | _ => acc end
                          | Opened _ _ => acc
                          end) l InvalidKey.
Lemma simple_put t k v : simple t -> segment k -> ~ In 46%N k -> simple (put_comps t [k] v).
Proof.
  destruct t as [d ks]. intros H S D. apply simple_inv in H as [N F]. cbn [put_comps pkids pdata].
  assert (E : forall l, map fst (set_kid l k (fun c => Node v (pkids c))) = map fst l \/ (map fst (set_kid l k (fun c => Node v (pkids c))) = map fst l ++ [k] /\ ~ In k (map fst l))).
  { induction l as [|[k' c] l IH]; cbn [set_kid map fst app]; [right; split; [reflexivity|intros []]|]. destruct (bytes_eqb k' k) eqn:B; [left; reflexivity|].
    assert (k' <> k) by (intros ->; rewrite bytes_eqb_refl in B; discriminate). cbn [map fst].
    destruct IH as [->|[-> NI]]; [left; reflexivity|right]. split; [reflexivity|]. intros [X|X]; auto. }
  assert (G : Forall (fun kc => (segment (fst kc) /\ ~ In 46%N (fst kc)) /\ simple (snd kc)) (set_kid ks k (fun c => Node v (pkids c)))).
  { clear N E. induction ks as [|[k' c] l IH]; cbn [set_kid].
    - constructor; [|constructor]. cbn [fst snd]. split; auto. cbn. split; [constructor|exact I].
    - inversion F as [|? ? F1 F2]; subst. cbn [fst snd] in F1. destruct (bytes_eqb k' k) eqn:B; constructor; auto. cbn [fst snd]. destruct F1 as [F1 F3]. split; auto.
      destruct c as [dc kc]. exact F3. }
  assert (M : NoDup (map fst (set_kid ks k (fun c => Node v (pkids c))))).
  { destruct (E ks) as [->|[-> NI]]; auto. apply NoDup_rev in N. rewrite <- (rev_involutive (map fst ks ++ [k])). apply NoDup_rev. rewrite rev_app_distr. cbn [rev app].
    constructor; auto. rewrite <- in_rev. exact NI. }
  clear E N F. change (put_comps) with put_comps. cbn [simple]. split; [exact M|]. clear M. revert G. generalize (set_kid ks k (fun c => Node v (pkids c))).
  induction 1 as [|[k' c] l [H1 H2] HF IH]; [exact I|]. cbn [fst snd] in *. auto.
Qed.
Lemma den_ok t ns key p : denotes ns key p -> getX parse_string t ns key = match value_at t p with Some d => Ok d | None => InvalidKey end.
Proof. intros D. rewrite (getX_denotes parse_string _ _ _ _ D). destruct (value_at t p); reflexivity. Qed.
Lemma step_value c t u c' : simple t -> updateOrSet (Some c) t u = Some c' -> forall ns key p, denotes ns key p ->
  getX parse_string c' ns key = match getX parse_string t ns key with Ok d => Ok d | _ => getX parse_string c ns key end.
Proof.
  intros S U ns key p D. unfold updateOrSet in U. destruct (update c t (negb u) false) as [t' r] eqn:UP. destruct r as [[]| | | | | |]; try discriminate. injection U as <-.
  destruct u; cbn [negb] in UP.
  - destruct (update_only_partial c t false t' (Ok tt) S UP) as (A & B & C). cbv zeta in B, C.
    destruct (A ns key p D) as [EX V]. rewrite !(exist_denotes _ _ _ _ D) in EX. rewrite !(den_ok _ _ _ _ D) in *.
    destruct (value_at t p) as [d|] eqn:VT.
    + assert (B1 : forall ns key p, denotes ns key p -> (exists d, getX parse_string t ns key = Ok d /\ (false = true -> ~ blank_text d)) -> doesKeyExist c ns key = true).
      { intros ns1 key1 p1 D1 M1. destruct (doesKeyExist c ns1 key1) eqn:X; auto. assert (Y : Ok tt = KeyNotFound) by (apply C; exists ns1, key1, p1; auto). discriminate Y. }
      destruct (B B1) as [_ B2]. specialize (B2 ns key p D). rewrite !(den_ok _ _ _ _ D), VT in B2. apply B2. exists d. split; auto. intros; discriminate.
    + destruct V as [V|V]; auto. rewrite V. destruct (value_at t' p), (value_at c p); try discriminate; auto.
  - destruct (update_merge_partial c t S) as (t'' & E & V). rewrite E in UP. injection UP as <-. exact (V ns key p D).
Qed.
Lemma merged_value ns key p : denotes ns key p -> forall l c t, Forall (fun e => match e with Applied _ t _ => simple t | _ => True end) l ->
  merged (Some c) l = Some t ->
  getX parse_string t ns key = fold_left (fun acc e => match e with
                          | Applied _ t _ => match getX parse_string t ns key with Ok d => Ok d | _ => acc end
                          | Opened _ _ => acc end) l (getX parse_string c ns key).
Proof.
  intros D l. induction l as [|[n ps|n t0 u] l IH]; intros c t F M; inversion F as [|? ? F1 F2]; subst; cbn [merged fold_left] in *.
  - congruence.
  - eauto.
  - destruct (updateOrSet (Some c) t0 u) as [c'|] eqn:U; [|discriminate]. rewrite (IH c' t F2 M). f_equal. exact (step_value c t0 u c' F1 U ns key p D).
Qed.
Theorem load_last_wins_partial : forall fs resolve oob fuel files s, oob <> 47%N ->
  (forall path t, fs path = Some t -> simple t) ->
  readFilesAndMerge fs resolve oob fuel files = LOk s ->
  forall t, conf s = Some t -> forall ns key p, denotes ns key p -> getX parse_string t ns key = last_value (trace s) ns key.
Proof.
  intros fs resolve oob fuel files s O SF E t C ns key p D.
  destruct (load_order_once_partial fs resolve oob fuel files s O E) as (_ & _ & _ & EV & M & _). rewrite M in C. unfold last_value.
  assert (F : Forall (fun e => match e with Applied _ t _ => simple t | _ => True end) (trace s)).
  { eapply Forall_impl; [|exact EV]. intros [n ps|n t' u] H; [exact I|]. destruct H as [(t0 & SRC & ->) _].
    assert (S0 : simple t0) by (destruct SRC as (rel & H & _); exact (SF _ _ H)).
    assert (SP : segment PARENTS /\ ~ In 46%N PARENTS) by (repeat split; try discriminate; intros X; cbn in X; intuition discriminate).
    unfold with_parents. destruct (getX parse_string t0 (view_root []) PARENTS); auto; apply simple_put; tauto. }
  clear E EV M. revert C F. generalize (trace s). clear s. induction l as [|[n ps|n t0 u] l IH]; intros C F; inversion F as [|? ? F1 F2]; subst; cbn [merged fold_left] in *.
  - discriminate.
  - apply IH; auto.
  - cbn [updateOrSet] in C. rewrite (merged_value ns key p D l t0 t F2 C). f_equal. rewrite !(den_ok _ _ _ _ D). destruct (value_at t0 p); reflexivity.
Qed.
Example load_last_wins_case : let fs := demo_fs [(str "/etc/a", Node [] [leaf (str "parents") (str "b"); leaf (str "x") (str "child")]);
                   (str "/etc/b", Node [] [leaf (str "x") (str "base"); leaf (str "y") (str "kept")])] in
  (forall path t, fs path = Some t -> simple t) /\ exists s, readFilesAndMerge fs (demo_resolve fs) 0%N 4 [str "a"] = LOk s /\
  last_value (trace s) (view_root []) (str "x") = Ok (str "child") /\ last_value (trace s) (view_root []) (str "y") = Ok (str "kept").
Proof.
  intros fs. split.
  - intros path t. unfold fs, demo_fs. cbn [find_kid].
    repeat match goal with |- context [bytes_eqb ?a path] => destruct (bytes_eqb a path) end; intros [=]; subst t;
      (split; [repeat constructor; intros X; cbn in X; intuition discriminate|]);
      repeat (split; [repeat split; try discriminate; intros X; cbn in X; intuition discriminate|split; [split; [constructor|exact I]|]]); exact I.
  - eexists. split; [vm_compute; reflexivity|]. split; vm_compute; reflexivity.
Qed.
(** A cyclic parent relation loads, and then one of the two is merged before its own parent. *)
Example ex_cycle : exists fs s,
  readFilesAndMerge fs (demo_resolve fs) 0%N 4 [str "a"] = LOk s /\ applied (trace s) = [str "b"; str "a"] /\
  In (Opened (str "b") [str "a"]) (trace s).
Proof.
  exists (demo_fs [(str "/etc/a", Node [] [leaf (str "parents") (str "b")]); (str "/etc/b", Node [] [leaf (str "parents") (str "a")])]).
  eexists. split; [vm_compute; reflexivity|]. split; [vm_compute; reflexivity|]. vm_compute. auto.
Qed.
(** Parent first, child overrides. *)
Example ex_override : exists fs s t,
  readFilesAndMerge fs (demo_resolve fs) 0%N 4 [str "a"] = LOk s /\ conf s = Some t /\
  getX parse_string t (view_root []) (str "x") = Ok (str "child") /\ getX parse_string t (view_root []) (str "y") = Ok (str "kept").
Proof.
  exists (demo_fs [(str "/etc/a", Node [] [leaf (str "parents") (str "b"); leaf (str "x") (str "child")]);
                   (str "/etc/b", Node [] [leaf (str "x") (str "base"); leaf (str "y") (str "kept")])]).
  eexists. eexists. split; [vm_compute; reflexivity|]. split; [vm_compute; reflexivity|]. vm_compute. auto.
Qed.

(** ** C51 *)
(** The candidates in order: for each search path, for each infix (one empty infix if there are none). *)
Definition spec_candidate (sp infix path : bytes) : bytes := 
  match infix with [] => sp ++ str "/" ++ path | _ => sp ++ str "/" ++ infix ++ str "/" ++ path end.
Definition spec_infixes (infixes : list bytes) : list bytes := match infixes with [] => [[]] | _ => infixes end.
(** [c] is the first candidate that exists: everything before it in the order does not. *)
Definition first_existing (exists_ : bytes -> bool) (sps infixes : list bytes) (path c : bytes) : Prop :=
  exists sps1 sp sps2 is1 i is2, sps = sps1 ++ sp :: sps2 /\ spec_infixes infixes = is1 ++ i :: is2 /\
    c = spec_candidate sp i path /\ exists_ c = true /\
    (forall sp' i', In sp' sps1 -> In i' (spec_infixes infixes) -> exists_ (spec_candidate sp' i' path) = false) /\
    (forall i', In i' is1 -> exists_ (spec_candidate sp i' path) = false).
Definition none_exists (exists_ : bytes -> bool) (sps infixes : list bytes) (path : bytes) : Prop :=
  forall sp i, In sp sps -> In i (spec_infixes infixes) -> exists_ (spec_candidate sp i path) = false.
Definition dotted (path : bytes) : Prop := exists r, path = str "./" ++ r \/ path = str "../" ++ r.
Lemma candidate_spec sp i path : candidate sp i path = spec_candidate sp i path.
Proof. unfold candidate, spec_candidate. destruct i; auto. rewrite <- !app_assoc. auto. Qed.
Lemma find_map_first (ex : bytes -> bool) sp path is c : List.find ex (map (fun i => candidate sp i path) is) = Some c ->
  exists is1 i is2, is = is1 ++ i :: is2 /\ c = spec_candidate sp i path /\ ex c = true /\ forall i', In i' is1 -> ex (spec_candidate sp i' path) = false.
Proof.
  induction is as [|i is IH]; [discriminate|]. cbn [map List.find]. destruct (ex (candidate sp i path)) eqn:E.
  - intros X. injection X as <-. exists [], i, is. rewrite <- candidate_spec. repeat split; auto. intros i' [].
  - intros X. destruct (IH X) as (is1 & j & is2 & -> & -> & H1 & H2). exists (i :: is1), j, is2. repeat split; auto.
    intros i' [<-|I]; [rewrite <- candidate_spec; auto|auto].
Qed.
Lemma find_none_map (ex : bytes -> bool) sp path is : List.find ex (map (fun i => candidate sp i path) is) = None <-> forall i', In i' is -> ex (spec_candidate sp i' path) = false.
Proof.
  induction is as [|i is IH]; cbn [map List.find]; [split; auto; intros _ i' []|]. rewrite candidate_spec. destruct (ex (spec_candidate sp i path)) eqn:E.
  - split; [discriminate|]. intros H. rewrite (H i) in E; [discriminate|left; auto].
  - rewrite IH. split; [intros H i' [<-|I]; auto|intros H i' I; apply H; right; auto].
Qed.
Lemma find_app (ex : bytes -> bool) a b : List.find ex (a ++ b) = match List.find ex a with Some c => Some c | None => List.find ex b end.
Proof. induction a as [|x a IH]; auto. cbn [app List.find]. destruct (ex x); auto. Qed.
Lemma starts_with_spec p s : starts_with p s = true <-> exists r, s = p ++ r.
Proof.
  unfold starts_with. revert s. induction p as [|a p IH]; intros s; cbn [drop_prefix].
  - split; [intros _; exists s; reflexivity|reflexivity].
  - destruct s as [|b s]; [split; [discriminate|intros (r & X); discriminate]|]. destruct (N.eqb a b) eqn:E.
    + apply N.eqb_eq in E. subst b. rewrite IH. split; intros (r & X); exists r; [subst; auto|injection X as ->; auto].
    + apply N.eqb_neq in E. split; [discriminate|]. intros (r & X). injection X as -> _. congruence.
Qed.
Theorem search_first_existing : forall ex sps infixes path, sps <> [] ->
  let r := search ex sps infixes path in
  (first_existing ex sps infixes path r) \/
  (none_exists ex sps infixes path /\
   exists sp sps' i is', sps = sp :: sps' /\ spec_infixes infixes = i :: is' /\ r = sp ++ str "/" ++ i ++ str "/" ++ path).
Proof.
  intros ex sps infixes path N. cbn zeta. unfold search. destruct (List.find ex (candidates sps infixes path)) as [c|] eqn:F.
  - left. unfold candidates in F. unfold first_existing. change (spec_infixes infixes) with (infixes' infixes) in *. clear N. induction sps as [|sp sps IH]; [discriminate|]. cbn [flat_map] in F. rewrite find_app in F.
    destruct (List.find ex (map (fun i => candidate sp i path) (infixes' infixes))) as [c'|] eqn:G.
    + injection F as ->. destruct (find_map_first _ _ _ _ _ G) as (is1 & i & is2 & E & E2 & H1 & H2).
      exists [], sp, sps, is1, i, is2. repeat split; auto. intros sp' i' [].
    + destruct (IH F) as (sps1 & sp0 & sps2 & is1 & i & is2 & -> & E1 & E2 & H1 & H2 & H3).
      exists (sp :: sps1), sp0, sps2, is1, i, is2. repeat split; auto. intros sp' i' [<-|I] Hi; auto. rewrite find_none_map in G. auto.
  - right. split.
    + clear N. unfold candidates in F. intros sp i Hs Hi. change (spec_infixes infixes) with (infixes' infixes) in *.
      induction sps as [|sp' sps IH]; [destruct Hs|]. cbn [flat_map] in F. rewrite find_app in F.
      destruct (List.find ex (map (fun i => candidate sp' i path) (infixes' infixes))) eqn:G; [discriminate|].
      destruct Hs as [->|Hs]; auto. rewrite find_none_map in G. auto.
    + destruct sps as [|sp sps]; [congruence|]. change (spec_infixes infixes) with (infixes' infixes).
      destruct (infixes' infixes) as [|i is] eqn:Q; [destruct infixes; discriminate|]. exists sp, sps, i, is. auto.
Qed.
Theorem resolve_path : forall fileExists fsExists parent_dir sps infixes path rel,
  let r := resolveFullFilePath fileExists fsExists parent_dir sps infixes path rel in
  let searched := (first_existing fsExists sps infixes path r) \/
    (none_exists fsExists sps infixes path /\
     exists sp sps' i is', sps = sp :: sps' /\ spec_infixes infixes = i :: is' /\ r = sp ++ str "/" ++ i ++ str "/" ++ path) in
  (sps = [] -> r = path) /\
  (forall p, path = str "/" ++ p -> r = path) /\
  (sps <> [] -> (forall p, path <> str "/" ++ p) -> ~ dotted path -> searched) /\
  (sps <> [] -> dotted path ->
     (rel = [] -> fileExists path = true -> r = path) /\
     (~ (rel = [] /\ fileExists path = true) -> 
        (fileExists (parent_dir rel ++ str "/" ++ path) = true -> r = parent_dir rel ++ str "/" ++ path) /\
        (fileExists (parent_dir rel ++ str "/" ++ path) = false -> searched))).
Proof.
  intros fe fx pd sps infixes path rel r searched.
  assert (D : starts_with (str "./") path || starts_with (str "../") path = true <-> dotted path).
  { rewrite orb_true_iff, !starts_with_spec. unfold dotted. split; [intros [(x & ->)|(x & ->)]; eauto|intros (x & [->| ->]); eauto]. }
  assert (SE : match sps with [] => true | _ => false end = true <-> sps = []) by (destruct sps; split; congruence).
  split; [|split; [|split]].
  - intros ->. reflexivity.
  - intros p ->. unfold r, resolveFullFilePath. destruct sps; reflexivity.
  - intros NS NA ND. unfold searched, r, resolveFullFilePath. destruct sps as [|sp sps]; [congruence|]. cbn [orb].
    replace (N.eqb (nth 0 path 0%N) SLASH) with false.
    2:{ destruct path as [|c path]; auto. cbn [nth]. symmetry. apply N.eqb_neq. intros ->. apply (NA path). reflexivity. }
    destruct (starts_with (str "./") path || starts_with (str "../") path); [exfalso; apply ND, D; auto|].
    apply search_first_existing. discriminate.
  - intros NS HD. pose proof (proj2 D HD) as D'. unfold searched, r, resolveFullFilePath. destruct sps as [|sp sps]; [congruence|]. cbn [orb].
    replace (N.eqb (nth 0 path 0%N) SLASH) with false by (destruct HD as (x & [->| ->]); reflexivity). rewrite D'.
    split.
    + intros -> ->. auto.
    + intros H. destruct ((match rel with [] => true | _ => false end) && fe path) eqn:B.
      { apply andb_true_iff in B as [B1 B2]. exfalso. apply H. destruct rel; auto; discriminate. }
      split; intros ->; auto. apply search_first_existing. discriminate.
Qed.
Print Assumptions resolve_path.
Example ex_resolve :
  let ex := fun p => bytes_eqb p (str "/b/cfg/f.info") in
  resolveFullFilePath ex ex remove_filename [str "/a"; str "/b"] [str "x"; str "cfg"] (str "f.info") [] = str "/b/cfg/f.info" /\
  resolveFullFilePath ex ex remove_filename [str "/a"; str "/b"] [] (str "g") [] = str "/a//g".
Proof. vm_compute. auto. Qed.

(** ** C94: findFile *)
Theorem findFile_spec : forall getenv exists_ name var r, ~ In 0%N var -> ~ In 0%N name ->
  (forall d, getenv var = Some d -> ~ In 0%N d) ->
  (findFile getenv exists_ name var = Some r <->
     exists d, getenv var = Some d /\ exists_ r = true /\
       ((exists d', d = d' ++ str "/" /\ r = d ++ name) \/ ((forall d', d <> d' ++ str "/") /\ r = d ++ str "/" ++ name))).
Proof.
  intros getenv ex name var r NV NN HD. unfold findFile.
  assert (CS : forall l : bytes, ~ In 0%N l -> c_str l = l).
  { induction l as [|c l IH]; auto. intros H. cbn [c_str]. destruct (N.eqb c 0) eqn:E.
    - apply N.eqb_eq in E. subst. exfalso. apply H. left. auto.
    - rewrite IH; auto. intros X. apply H. right. auto. }
  rewrite (CS var NV). destruct (getenv var) as [d|] eqn:G; [|split; [discriminate|intros (d & X & _); discriminate]].
  specialize (HD d eq_refl). cbn zeta.
  assert (CF : forall e, e = d \/ e = d ++ str "/" -> c_str (e ++ name) = e ++ name).
  { intros e He. apply CS. intros X. apply in_app_or in X as [X|X]; auto. destruct He as [->| ->]; auto.
    apply in_app_or in X as [X|X]; auto. cbn in X. destruct X as [X|[]]; discriminate. }
  destruct (ensureTrailing_cases d) as [[-> (p & E)]|[-> E]].
  - destruct (ex (d ++ name)) eqn:X.
    + rewrite CF by auto. split.
      * intros Y. injection Y as <-. exists d. split; auto. split; auto. left. exists p. auto.
      * intros (d0 & Y & _ & [(d' & _ & ->)|(N & _)]); injection Y as <-; auto. exfalso. apply (N p). auto.
    + split; [discriminate|]. intros (d0 & Y & Z & [(d' & _ & ->)|(N & _)]); injection Y as <-; [congruence|]. exfalso. apply (N p). auto.
  - change [SLASH] with (str "/"). rewrite <- app_assoc. destruct (ex (d ++ str "/" ++ name)) eqn:X.
    + rewrite app_assoc, CF by auto. rewrite <- app_assoc. split.
      * intros Y. injection Y as <-. exists d. split; auto. 
      * intros (d0 & Y & _ & [(d' & Z & ->)|(N & ->)]); injection Y as <-; auto. exfalso. apply (E d'). auto.
    + split; [discriminate|]. intros (d0 & Y & Z & [(d' & W & ->)|(N & ->)]); injection Y as <-; [|congruence]. exfalso. apply (E d'). auto.
Qed.
Print Assumptions findFile_spec.
Example ex_findFile : findFile (fun v => if bytes_eqb v (str "D") then Some (str "/data") else None) (fun p => bytes_eqb p (str "/data/f")) (str "f") (str "D") = Some (str "/data/f").
Proof. reflexivity. Qed.
