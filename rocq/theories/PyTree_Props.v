(** C130: property trees from Python. *)
From Verif Require Import Bytes Strings_Model Float64 PTree_Model PTree_Spec PTree_Proofs PTree_Props ValueStore_Model ValueStore_Proofs DoubleText_Model DoubleText_Props.
From Verif Require Import InfoFile_Model InfoFile_Props IniFile_Model IniFile_Props XmlFile_Model XmlFile_Props PTreeFile_Model PyStore_Model PyStore_Props PyTree_Model.
Open Scope nat_scope.

(** ** Specification *)
(** the names Python programs use *)
Definition get_name (k : kind) : bytes := match k with KStr => str "getString" | KBool => str "getBool" | KInt => str "getInt" | KFloat => str "getDouble" end.
Definition default_name (k : kind) : bytes := get_name k ++ str "Default".
Definition set_name (k : kind) : bytes := match k with KStr => str "setString" | KBool => str "setBool" | KInt => str "setInt" | KFloat => str "setDouble" end.
Definition create_name (k : kind) : bytes :=
  match k with KStr => str "getOrCreateString" | KBool => str "getOrCreatetBool" | KInt => str "getOrCreateInt" | KFloat => str "getOrCreateDouble" end.
(** the methods that are meant to change something *)
Definition changing (n : bytes) : Prop :=
  (exists k, n = set_name k \/ n = create_name k) \/
  In n [str "loadXml"; str "loadIni"; str "loadInfo"; str "saveXml"; str "saveIni"; str "saveInfo"; str "update"; str "updateWithEmptyUpdates"; str "updateOrCreate"].
(** every object points to a tree *)
Definition sound (w : world) : Prop := Forall (fun o => oloc o < length (heap w)) (objs w).
(** the answer carries no new state: the call was refused *)
Definition refused (a : answer) : Prop := a = Raised ArgumentError \/ a = Raised AttributeError \/ a = Raised OverflowError.

Section P.
Variable prec : nat.
Notation exec := (exec prec). Notation run := (run prec). Notation invoke := (invoke prec).
Notation do_get := (do_get prec). Notation do_get_default := (do_get_default prec). Notation do_get_or_create := (do_get_or_create prec). Notation do_set := (do_set prec).
Notation storable := (storable prec).

(** ** Locality: whatever a statement does *)
(** [grows w w']: the objects of w are still there and mean the same, and no tree disappears *)
Definition grows (w w' : world) : Prop := (exists l, objs w' = objs w ++ l) /\ length (heap w) <= length (heap w').
(** a method that does not belong to a ConstPropertyTree *)
Definition reader (m : meth) : bool := match m with MGetChild | MGet _ | MGetDefault _ | MExists => true | _ => false end.
Lemma put_tree_spec w o r : grows w (fst (put_tree w o r)) /\ objs (fst (put_tree w o r)) = objs w /\ files (fst (put_tree w o r)) = files w /\
  length (heap (fst (put_tree w o r))) = length (heap w) /\ (forall i, i <> oloc o -> hget (heap (fst (put_tree w o r))) i = hget (heap w) i) /\
  (oloc o < length (heap w) -> hget (heap (fst (put_tree w o r))) (oloc o) = fst r).
Proof.
  unfold put_tree. cbn [fst objs heap files]. rewrite hset_length. split; [split; [exists []; now rewrite app_nil_r|cbn [heap]; now rewrite hset_length]|].
  repeat split; auto. - intros i H. apply hget_hset_other. auto. - intros H. apply hget_hset. auto.
Qed.
Inductive effect (w : world) (o : obj) (m : meth) : world * answer -> Prop :=
| eff_none a : effect w o m (w, a)
| eff_child s : is_tree (ocls o) = true -> m = MGetChild -> effect w o m (new_obj w (mkO CTree (oloc o) (view_child (ons o) s)))
| eff_put r : reader m = false -> effect w o m (put_tree w o r)
| eff_save fs a : (exists f, m = MSave f) -> effect w o m (mkW (objs w) (heap w) fs, a).
Lemma invoke_effect w o m args : effect w o m (invoke w o m args).
Proof.
  unfold PyTree_Model.invoke, badargs. destruct m; destruct args as [|a1 [|a2 [|a3 [|a4 l]]]]; try apply eff_none;
    repeat match goal with
      | |- effect _ _ _ (match ?x with _ => _ end) => destruct x eqn:?
      | |- effect _ _ _ (if ?x then _ else _) => destruct x eqn:?
      end; try apply eff_none; try (apply eff_put; reflexivity); try (apply eff_save; eexists; reflexivity); apply eff_child; auto.
Qed.
Lemma assoc_in l n m : assoc l n = Some m -> In (n, m) l.
Proof. induction l as [|[k x] l IH]; cbn [assoc]; [discriminate|]. destruct (bytes_eqb k n) eqn:E; [intros H; injection H as ->; left; f_equal; apply bytes_eqb_eq; auto|right; auto]. Qed.
Lemma const_reader n m : attribute CConst n = Some m -> reader m = true.
Proof.
  cbn [attribute]. intros H. apply assoc_in in H. unfold const_methods in H. cbn [In] in H.
  repeat (destruct H as [H|H]; [injection H as <- <-; reflexivity|]). destruct H.
Qed.
Lemma attribute_changing c n m : attribute c n = Some m -> reader m = false -> changing n.
Proof.
  assert (A : forall n m, assoc const_methods n = Some m -> reader m = false -> changing n) by (intros n' m' H R; rewrite (const_reader n' m' H) in R; discriminate).
  assert (B : forall n m, assoc tree_methods n = Some m -> reader m = false -> changing n).
  { intros n' m' H R. apply assoc_in in H. unfold tree_methods in H. cbn [In] in H. left.
    destruct H as [H|H]; [injection H as <- <-; discriminate|].
    repeat (destruct H as [H|H]; [injection H as <- <-; first [exists KInt; solve [auto] | exists KStr; solve [auto] | exists KBool; solve [auto] | exists KFloat; solve [auto]]|]). destruct H. }
  assert (C : forall n m, assoc boost_methods n = Some m -> changing n).
  { intros n' m' H. apply assoc_in in H. unfold boost_methods in H. cbn [In] in H. right.
    repeat (destruct H as [H|H]; [injection H as <- <-; cbn [In]; tauto|]). destruct H. }
  destruct c; cbn [attribute]; intros H R.
  - eapply A; eauto.
  - destruct (assoc tree_methods n) as [x|] eqn:E; cbn [orelse] in H; [injection H as ->; eapply B; eauto|eapply A; eauto].
  - destruct (assoc boost_methods n) as [y|] eqn:F; cbn [orelse] in H; [injection H as ->; eapply C; eauto|].
    destruct (assoc tree_methods n) as [x|] eqn:E; cbn [orelse] in H; [injection H as ->; eapply B; eauto|eapply A; eauto].
Qed.
(** everything a statement can do *)
Inductive step (w : world) : stmt -> world * answer -> Prop :=
| st_none s a : step w s (w, a)
| st_fresh l s : step w (NewBoost l) (mkW (objs w ++ [mkO CBoost (length (heap w)) s]) (heap w ++ [pempty]) (files w), PyObj (length (objs w)))
| st_view s o c ns : In o (objs w) -> (is_tree c = true -> is_tree (ocls o) = true) -> is_boost c = false -> step w s (new_obj w (mkO c (oloc o) ns))
| st_put n name args o r : the w n = Some o -> is_tree (ocls o) = true -> changing name -> step w (Call n name args) (put_tree w o r)
| st_save n name args fs a : changing name -> step w (Call n name args) (mkW (objs w) (heap w) fs, a).
Lemma exec_step w s : step w s (exec w s).
Proof.
  destruct s as [l|l|l|n name args]; cbn [PyTree_Model.exec]; unfold badargs.
  - destruct l as [|a [|b l]]; [constructor| |constructor]. destruct (to_str a); constructor.
  - destruct l as [|[p|v|] [|a [|b l]]]; try constructor. destruct (the w p) as [o|] eqn:T; [|constructor]. destruct (to_str a); try constructor.
    + apply nth_error_In in T. exact T. + discriminate. + reflexivity.
  - destruct l as [|[p|v|] [|a [|b l]]]; try constructor. destruct (the w p) as [o|] eqn:T; [|constructor]. destruct (to_str a); try constructor.
    destruct (is_tree (ocls o)) eqn:I; constructor; auto. apply nth_error_In in T. exact T.
  - destruct (the w n) as [o|] eqn:T; [|constructor]. destruct (attribute (ocls o) name) as [m|] eqn:A; [|constructor].
    destruct (invoke_effect w o m args) as [a|s I E|r R|fs a [f E]].
    + constructor.
    + apply st_view; auto. apply nth_error_In in T. exact T.
    + apply st_put with (1 := T); [|eapply attribute_changing; eauto]. destruct (ocls o) eqn:C; auto. rewrite (const_reader _ _ A) in R. discriminate.
    + apply st_save. eapply attribute_changing; eauto. subst. reflexivity.
Qed.
Lemma hget_app_l w t i : i < length w -> hget (w ++ t) i = hget w i.
Proof. intros H. unfold hget. apply app_nth1. exact H. Qed.

(** C130: existing objects keep their meaning, objects always point to a tree *)
Lemma exec_grows w s : sound w -> grows w (fst (exec w s)) /\ sound (fst (exec w s)).
Proof.
  intros S. destruct (exec_step w s) as [s a|l s|s o c ns I C B|n name args o r T C N|n name args fs a N]; cbn [fst].
  - split; auto. split; [exists []; now rewrite app_nil_r|lia].
  - split; [split; [eexists; reflexivity|cbn [heap]; rewrite app_length; lia]|]. unfold sound in *. cbn [objs heap]. rewrite app_length. cbn [length].
    apply Forall_app. split; [eapply Forall_impl; [|exact S]; intros x Hx; cbn beta in *; lia|constructor; [cbn; lia|constructor]].
  - unfold new_obj. cbn [fst]. split; [split; [eexists; reflexivity|cbn [heap]; lia]|]. unfold sound in *. cbn [objs heap]. apply Forall_app. split; auto. constructor; [|constructor].
    cbn [oloc]. rewrite Forall_forall in S. apply S. exact I.
  - pose proof (put_tree_spec w o r) as (G & O & _ & L & _). split; auto. unfold sound. rewrite O, L. exact S.
  - split; [split; [exists []; now rewrite app_nil_r|cbn [heap]; lia]|exact S].
Qed.
(** C130: a call that does not belong to the changing methods changes no tree and no file; nor does a refused call *)
Theorem py_reads_change_nothing w n name args : ~ changing name ->
  heap (fst (exec w (Call n name args))) = heap w /\ files (fst (exec w (Call n name args))) = files w.
Proof.
  intros N. remember (Call n name args) as s eqn:E. destruct (exec_step w s) as [s a|l s|s o c ns I C B|n' name' args' o r T C N'|n' name' args' fs a N']; try discriminate E; cbn; auto.
  - injection E as -> -> ->. tauto.
  - injection E as -> -> ->. tauto.
Qed.
Lemma conv_same k t ns key a (r : ptree * answer) : r = do_get_or_create k t ns key a \/ r = do_set k t ns key a -> refused (snd r) -> fst r = t.
Proof.
  intros [-> | ->]; destruct k; cbn [PyTree_Model.do_get_or_create PyTree_Model.do_set with_kind];
    match goal with |- refused (snd match ?c with _ => _ end) -> _ => destruct c end; auto; unfold of_set;
    match goal with |- refused (snd match ?c with _ => _ end) -> _ => destruct c as [x| | | | | |] end; auto; try (destruct x); cbn; auto;
    intros [H|[H|H]]; discriminate H.
Qed.
Lemma put_same_tree w o r : fst r = tree_of w o -> fst (put_tree w o r) = w.
Proof. intros E. unfold put_tree. cbn [fst]. rewrite E. unfold tree_of. rewrite hset_same. destruct w; reflexivity. Qed.
Lemma of_update_refused r : ~ refused (snd (of_update r)).
Proof. destruct r as [t [x| | | | | |]]; cbn; intros [H|[H|H]]; discriminate H. Qed.
Lemma do_load_refused f fs p t : ~ refused (snd (do_load f fs p t)).
Proof.
  unfold do_load. destruct (fs p) as [c|]; [|cbn; intros [H|[H|H]]; discriminate H]. destruct f; try apply of_update_refused.
  destruct (InfoFile_Model.loadInfo t c) as [x|]; [apply of_update_refused|cbn; intros [H|[H|H]]; discriminate H].
Qed.
Theorem py_refused_unchanged w s : refused (snd (exec w s)) -> fst (exec w s) = w.
Proof.
  assert (U : forall o r, refused (snd (put_tree w o (of_update r))) -> fst (put_tree w o (of_update r)) = w).
  { intros o r H. exfalso. exact (of_update_refused r H). }
  destruct s as [l|l|l|n name args]; cbn [PyTree_Model.exec]; unfold badargs, new_obj;
    try (repeat match goal with |- refused (snd (match ?x with _ => _ end)) -> _ => destruct x end; cbn; auto; intros [H|[H|H]]; discriminate H).
  destruct (the w n) as [o|]; auto. destruct (attribute (ocls o) name) as [m|]; auto.
  unfold PyTree_Model.invoke, badargs. destruct m; destruct args as [|a1 [|a2 [|a3 [|a4 l]]]]; try (cbn; auto; fail).
  - destruct (is_tree (ocls o)); [|cbn; auto]. destruct (to_str a1); cbn; auto. intros [H|[H|H]]; discriminate H.
  - destruct (to_str a1); cbn; auto.
  - destruct (to_str a1); cbn; auto.
  - destruct (to_str a1); cbn; auto.
  - destruct (to_str a1) as [s| |]; cbn [snd fst]; auto. intros H. apply put_same_tree. eapply conv_same; [left; reflexivity|exact H].
  - destruct (to_str a1) as [s| |]; cbn [snd fst]; auto. intros H. apply put_same_tree. eapply conv_same; [right; reflexivity|exact H].
  - destruct (to_str a1) as [s| |]; cbn [snd fst]; auto. intros H. exfalso. exact (do_load_refused _ _ _ _ H).
  - destruct (to_str a1) as [s| |]; cbn [snd fst]; auto. unfold do_save. destruct f; cbn [fst snd]; try (intros [H|[H|H]]; discriminate H).
    + destruct (IniFile_Model.saveIni (tree_of w o)) as [c []]; cbn [fst snd]; intros [H|[H|H]]; discriminate H.
    + destruct (JsonFile_Model.saveJson (tree_of w o)) as [c []]; cbn [fst snd]; intros [H|[H|H]]; discriminate H.
  - destruct (to_boost w a1); [|cbn; auto]. destruct (to_bool a2); cbn [snd fst]; auto. destruct (to_bool a3); cbn [snd fst]; auto.
  - destruct (to_boost w a1); [|cbn; auto]. destruct (to_bool a2); cbn [snd fst]; auto.
  - destruct (to_boost w a1); cbn [snd fst]; auto.
Qed.

(** C130: a tree that only ConstPropertyTree objects refer to never changes, whatever the program does *)
Definition only_const (w : world) (i : nat) : Prop := forall o, In o (objs w) -> oloc o = i -> ocls o = CConst.
Lemma exec_const w s i : i < length (heap w) -> only_const w i ->
  hget (heap (fst (exec w s))) i = hget (heap w) i /\ only_const (fst (exec w s)) i /\ i < length (heap (fst (exec w s))).
Proof.
  intros L C. destruct (exec_step w s) as [s a|l s|s o c ns I K B|n name args o r T K N|n name args fs a N]; cbn [fst]; auto.
  - cbn [heap objs]. split; [apply hget_app_l; auto|]. split; [|rewrite app_length; lia]. intros o H E. cbn [objs] in H. apply in_app_or in H as [H|[<-|[]]]; auto. cbn in E. lia.
  - unfold new_obj. cbn [fst heap]. split; auto. split; auto. intros o' H E. cbn [objs] in H. apply in_app_or in H as [H|[<-|[]]]; auto. cbn [oloc ocls] in *.
    pose proof (C o I E) as CC. destruct c; auto; rewrite CC in K; specialize (K eq_refl); discriminate K.
  - pose proof (put_tree_spec w o r) as (_ & O & _ & LL & FR & _). apply nth_error_In in T.
    assert (X : oloc o <> i) by (intros E; rewrite (C o T E) in K; discriminate K). split; [apply FR; auto|]. split; [|rewrite LL; auto]. intros o' H. rewrite O in H. apply C. exact H.
Qed.
Theorem py_const_objects_safe w p i : i < length (heap w) -> only_const w i -> hget (heap (fst (run w p))) i = hget (heap w) i.
Proof.
  revert w. induction p as [|s p IH]; intros w L C; auto. cbn [PyTree_Model.run]. pose proof (exec_const w s i L C) as (E & C' & L').
  destruct (exec w s) as [w1 a]. cbn [fst] in *. specialize (IH w1 L' C'). destruct (run w1 p) as [w2 l]. cbn [fst] in *. congruence.
Qed.
(** ** reading and writing through objects *)
Lemma the_grows w w' n o : grows w w' -> the w n = Some o -> the w' n = Some o.
Proof. intros [[l E] _] T. unfold the in *. rewrite E. rewrite nth_error_app1; auto. apply nth_error_Some. congruence. Qed.
Lemma attr_get c k : attribute c (get_name k) = Some (MGet k). Proof. destruct c, k; reflexivity. Qed.
Lemma attr_default c k : attribute c (default_name k) = Some (MGetDefault k). Proof. destruct c, k; reflexivity. Qed.
Lemma attr_set c k : is_tree c = true -> attribute c (set_name k) = Some (MSet k). Proof. destruct c, k; intros H; try discriminate H; reflexivity. Qed.
Lemma attr_create c k : is_tree c = true -> attribute c (create_name k) = Some (MGetOrCreate k). Proof. destruct c, k; intros H; try discriminate H; reflexivity. Qed.
Lemma attr_exists c : attribute c (str "doesKeyExist") = Some MExists. Proof. destruct c; reflexivity. Qed.
Definition key_arg (key : bytes) : pyarg := AVal (PyStr key).
(** what a get answers, given the text found *)
Definition answer_of (k : kind) (d : option bytes) : answer :=
  match d with None => Raised RuntimeError | Some t => match reads k t with Some v => Value v | None => Raised RuntimeError end end.
Lemma do_get_eq k t ns key p : denotes ns key p -> do_get k t ns key = answer_of k (value_at t p).
Proof.
  intros D. destruct k; cbn [PyTree_Model.do_get with_kind]; rewrite (getX_denotes _ _ _ _ _ D); unfold answer_of, of_get, reads; destruct (value_at t p) as [d|]; auto.
  - destruct (parse_bool d); auto. - destruct (parse_int d); auto. - destruct (parse_double d); auto.
Qed.
Lemma exec_get w n o k key p : the w n = Some o -> denotes (ons o) key p ->
  exec w (Call n (get_name k) [key_arg key]) = (w, answer_of k (value_at (tree_of w o) p)).
Proof. intros T D. cbn [PyTree_Model.exec]. rewrite T, attr_get. cbn [PyTree_Model.invoke key_arg to_str]. rewrite (do_get_eq _ _ _ _ _ D). reflexivity. Qed.
Lemma exec_exists w n o key p : the w n = Some o -> denotes (ons o) key p ->
  exec w (Call n (str "doesKeyExist") [key_arg key]) = (w, Value (PyBool (match value_at (tree_of w o) p with Some _ => true | None => false end))).
Proof. intros T D. cbn [PyTree_Model.exec]. rewrite T, attr_exists. cbn [PyTree_Model.invoke key_arg to_str]. rewrite (exist_denotes _ _ _ _ D). reflexivity. Qed.
Lemma exec_set w n o key p v : the w n = Some o -> is_tree (ocls o) = true -> denotes (ons o) key p -> in_range v ->
  exec w (Call n (set_name (kind_of v)) [key_arg key; AVal v]) = put_tree w o (put_comps (tree_of w o) p (text prec v), Nothing).
Proof.
  intros T C D R. cbn [PyTree_Model.exec]. rewrite T, (attr_set _ _ C). cbn [PyTree_Model.invoke key_arg to_str].
  destruct v as [s|b|z|x|]; cbn [kind_of PyTree_Model.do_set with_kind to_str to_bool to_int to_double text in_range] in *.
  - now rewrite (setX_denotes _ _ _ _ _ _ D).
  - now rewrite (setX_denotes _ _ _ _ _ _ D).
  - assert (I : int_arg z = true) by (unfold int_arg, INT_MIN, INT_MAX; apply andb_true_intro; split; apply Z.leb_le; lia). rewrite I. now rewrite (setX_denotes _ _ _ _ _ _ D).
  - now rewrite (setX_denotes _ _ _ _ _ _ D).
  - destruct R.
Qed.
(** C130: what was set through one object is read through every object of the same tree *)
Theorem py_set_then_get w n o key p v : sound w -> the w n = Some o -> is_tree (ocls o) = true -> denotes (ons o) key p -> storable v ->
  let w' := fst (exec w (Call n (set_name (kind_of v)) [key_arg key; AVal v])) in
  snd (exec w (Call n (set_name (kind_of v)) [key_arg key; AVal v])) = Nothing /\
  (forall m o' key', the w m = Some o' -> oloc o' = oloc o -> denotes (ons o') key' p ->
     snd (exec w' (Call m (get_name (kind_of v)) [key_arg key'])) = Value v /\ snd (exec w' (Call m (str "doesKeyExist") [key_arg key'])) = Value (PyBool true)) /\
  (forall m o' key' q k, the w m = Some o' -> denotes (ons o') key' q -> oloc o' <> oloc o \/ q <> p ->
     snd (exec w (Call m (str "doesKeyExist") [key_arg key'])) = Value (PyBool true) ->
     snd (exec w' (Call m (get_name k) [key_arg key'])) = snd (exec w (Call m (get_name k) [key_arg key']))).
Proof.
  intros S T C D ST. cbv zeta. assert (R : in_range v) by (destruct v; cbn in *; auto). rewrite (exec_set w n o key p v T C D R).
  pose proof (put_tree_spec w o (put_comps (tree_of w o) p (text prec v), Nothing)) as (G & O & _ & _ & FR & SM).
  set (w' := fst (put_tree w o (put_comps (tree_of w o) p (text prec v), Nothing))) in *.
  assert (L : oloc o < length (heap w)) by (apply nth_error_In in T; unfold sound in S; rewrite Forall_forall in S; apply S; auto).
  specialize (SM L). cbn [fst] in SM. split; [reflexivity|]. split.
  - intros m o' key' M E D'. pose proof (the_grows _ _ _ _ G M) as M'. rewrite (exec_get w' m o' _ key' p M' D'), (exec_exists w' m o' key' p M' D'). cbn [snd].
    unfold tree_of. rewrite E, SM, put_same. unfold answer_of. rewrite (reads_text prec v ST). auto.
  - intros m o' key' q k M D' NE EX. pose proof (the_grows _ _ _ _ G M) as M'. rewrite (exec_get w' m o' _ key' q M' D'), (exec_get w m o' _ key' q M D'). cbn [snd].
    rewrite (exec_exists w m o' key' q M D') in EX. cbn [snd] in EX. f_equal. unfold tree_of at 1. destruct (Nat.eq_dec (oloc o') (oloc o)) as [E|E].
    + rewrite E, SM. destruct NE as [NE|NE]; [congruence|]. rewrite put_other by auto. unfold tree_of in EX |- *. rewrite E in *. destruct (value_at (hget (heap w) (oloc o)) q); auto. discriminate EX.
    + rewrite FR by auto. reflexivity.
Qed.
(** ** defaults *)
Lemma reads_kind k t v : reads k t = Some v -> kind_of v = k \/ v = PyOther.
Proof.
  destruct k; cbn [reads]; [destruct (parse_string t)|destruct (parse_bool t)|destruct (parse_int t)|destruct (parse_double t)]; cbn [option_map]; intros E; try discriminate E; injection E as <-; left; reflexivity.
Qed.
Definition or_default (k : kind) (d : pyval) (t : option bytes) : pyval := match t with Some t => match reads k t with Some u => u | None => d end | None => d end.
Lemma exec_default w n o key p d : the w n = Some o -> denotes (ons o) key p -> in_range d ->
  exec w (Call n (default_name (kind_of d)) [key_arg key; AVal d]) = (w, Value (or_default (kind_of d) d (value_at (tree_of w o) p))).
Proof.
  intros T D R. cbn [PyTree_Model.exec]. rewrite T, attr_default. cbn [PyTree_Model.invoke key_arg to_str]. f_equal. set (t := tree_of w o). clearbody t.
  destruct d as [s|b|z|x|]; cbn [kind_of PyTree_Model.do_get_default with_kind to_str to_bool to_int to_double in_range or_default reads] in *; unfold getX_default, imp_get_default, or_default.
  - rewrite (getopt_denotes _ _ _ _ _ D). destruct (value_at t p) as [y|]; auto.
  - rewrite (getopt_denotes _ _ _ _ _ D). destruct (value_at t p) as [y|]; auto. cbn [reads]. destruct (parse_bool y); auto.
  - assert (I : int_arg z = true) by (unfold int_arg, INT_MIN, INT_MAX; apply andb_true_intro; split; apply Z.leb_le; lia). rewrite I.
    rewrite (getopt_denotes _ _ _ _ _ D). destruct (value_at t p) as [y|]; auto. cbn [reads]. destruct (parse_int y); auto.
  - rewrite (getopt_denotes _ _ _ _ _ D). destruct (value_at t p) as [y|]; auto. cbn [reads]. destruct (parse_double y); auto.
  - destruct R.
Qed.
Lemma exec_create w n o key p d : the w n = Some o -> is_tree (ocls o) = true -> denotes (ons o) key p -> in_range d ->
  exec w (Call n (create_name (kind_of d)) [key_arg key; AVal d]) =
  put_tree w o (match value_at (tree_of w o) p with
                | Some t => match reads (kind_of d) t with Some u => (tree_of w o, Value u) | None => (put_comps (tree_of w o) p (text prec d), Value d) end
                | None => (put_comps (tree_of w o) p (text prec d), Value d)
                end).
Proof.
  intros T C D R. cbn [PyTree_Model.exec]. rewrite T, (attr_create _ _ C). cbn [PyTree_Model.invoke key_arg to_str]. f_equal. set (t := tree_of w o). clearbody t.
  assert (G : forall A (tr : bytes -> option A) pr v, getX_or_set tr pr t (ons o) key v =
    match match value_at t p with Some y => tr y | None => None end with Some u => Ok (t, u) | None => Ok (put_comps t p (pr v), v) end).
  { intros A tr pr v. unfold getX_or_set, imp_get_or_set. rewrite (getopt_denotes tr _ _ _ _ D). pose proof (setX_denotes pr t _ _ _ v D) as S. unfold setX in S. rewrite S. reflexivity. }
  destruct d as [s|b|z|x|]; cbn [kind_of PyTree_Model.do_get_or_create with_kind to_str to_bool to_int to_double in_range text] in *.
  - rewrite G. destruct (value_at t p) as [y|]; auto.
  - rewrite G. destruct (value_at t p) as [y|]; auto. cbn [reads]. destruct (parse_bool y); auto.
  - assert (I : int_arg z = true) by (unfold int_arg, INT_MIN, INT_MAX; apply andb_true_intro; split; apply Z.leb_le; lia). rewrite I.
    rewrite G. destruct (value_at t p) as [y|]; auto. cbn [reads]. destruct (parse_int y); auto.
  - rewrite G. destruct (value_at t p) as [y|]; auto. cbn [reads]. destruct (parse_double y); auto.
  - destruct R.
Qed.
(** C130: getXDefault answers what getX answers, or the default if that raises, and changes nothing; getOrCreateX answers the same and makes it stay *)
Theorem py_defaults w n o key p d : sound w -> the w n = Some o -> denotes (ons o) key p -> storable d ->
  let answer := match snd (exec w (Call n (get_name (kind_of d)) [key_arg key])) with Value v => Value v | _ => Value d end in
  exec w (Call n (default_name (kind_of d)) [key_arg key; AVal d]) = (w, answer) /\
  (is_tree (ocls o) = true ->
   let w' := fst (exec w (Call n (create_name (kind_of d)) [key_arg key; AVal d])) in
   snd (exec w (Call n (create_name (kind_of d)) [key_arg key; AVal d])) = answer /\
   forall m o' key', the w m = Some o' -> oloc o' = oloc o -> denotes (ons o') key' p -> snd (exec w' (Call m (get_name (kind_of d)) [key_arg key'])) = answer).
Proof.
  intros S T D ST. cbv zeta. assert (R : in_range d) by (destruct d; cbn in *; auto). rewrite (exec_get w n o _ key p T D). cbn [snd].
  assert (A : Value (or_default (kind_of d) d (value_at (tree_of w o) p)) = match answer_of (kind_of d) (value_at (tree_of w o) p) with Value v => Value v | _ => Value d end).
  { unfold or_default, answer_of. destruct (value_at (tree_of w o) p) as [t|]; auto. destruct (reads (kind_of d) t); auto. }
  split; [rewrite (exec_default w n o key p d T D R); rewrite A; reflexivity|]. intros C. rewrite (exec_create w n o key p d T C D R). rewrite <- A. clear A.
  match goal with |- context [put_tree w o ?x] => set (r := x) end.
  assert (E : snd r = Value (or_default (kind_of d) d (value_at (tree_of w o) p)) /\ answer_of (kind_of d) (value_at (fst r) p) = Value (or_default (kind_of d) d (value_at (tree_of w o) p))).
  { unfold r, or_default. destruct (value_at (tree_of w o) p) as [t|] eqn:V.
    - destruct (reads (kind_of d) t) as [u|] eqn:U; cbn [fst snd]; split; auto; unfold answer_of; [rewrite V, U|rewrite put_same, reads_text]; auto.
    - cbn [fst snd]. split; auto. unfold answer_of. rewrite put_same, reads_text; auto. }
  destruct E as [E1 E2]. split; [exact E1|]. pose proof (put_tree_spec w o r) as (G & _ & _ & _ & _ & SM).
  intros m o' key' M EL D'. pose proof (the_grows _ _ _ _ G M) as M'. rewrite (exec_get _ m o' _ key' p M' D'). cbn [snd]. unfold tree_of at 1. rewrite EL, SM; auto.
  apply nth_error_In in T. unfold sound in S. rewrite Forall_forall in S. apply S. auto.
Qed.
(** ** other Python types: which value an argument stands for *)
(** [stands_for k a v]: where an argument of type k is expected, a means v *)
Inductive stands_for : kind -> pyarg -> pyval -> Prop :=
| sf_own v : in_range v -> stands_for (kind_of v) (AVal v) v
| sf_zero : stands_for KBool (AVal (PyInt 0)) (PyBool false)
| sf_nonzero z : z <> 0%Z -> stands_for KBool (AVal (PyInt z)) (PyBool true)
| sf_none : stands_for KBool ANone (PyBool false)
| sf_true_int : stands_for KInt (AVal (PyBool true)) (PyInt 1)
| sf_false_int : stands_for KInt (AVal (PyBool false)) (PyInt 0)
| sf_int_double z x : is_finite x = true -> B2R x = rnd (IZR z) -> Bsign x = (z <? 0)%Z -> stands_for KFloat (AVal (PyInt z)) (PyFloat x)
| sf_true_double : stands_for KFloat (AVal (PyBool true)) (PyFloat (fofZ 1))
| sf_false_double : stands_for KFloat (AVal (PyBool false)) (PyFloat fzero).
(** numbers too large for the type *)
Definition too_large (k : kind) (a : pyarg) : Prop :=
  exists z, a = AVal (PyInt z) /\ match k with KInt => ~ (- 2 ^ 31 <= z < 2 ^ 31)%Z | KFloat => (bpow radix2 1024 <= Rabs (rnd (IZR z)))%R | _ => False end.
Lemma fofZ_any z : if Rlt_bool (Rabs (rnd (IZR z))) (bpow radix2 1024) then is_finite (fofZ z) = true /\ B2R (fofZ z) = rnd (IZR z) /\ Bsign (fofZ z) = (z <? 0)%Z else is_finite (fofZ z) = false.
Proof.
  pose proof (binary_normalize_correct 53 1024 _ _ mode_NE z 0 false) as K. cbv zeta in K. cbn [round_mode] in K. fold (fofZ z) in K.
  assert (E : F2R (Float radix2 z 0) = IZR z) by (unfold F2R; cbn; ring). rewrite E in K.
  destruct (Rlt_bool (Rabs (rnd (IZR z))) (bpow radix2 1024)).
  - destruct K as (K1 & K2 & K3). split; [exact K2|]. split; [exact K1|]. rewrite K3.
    destruct (Rcompare_spec (IZR z) 0) as [L|L|L].
    + apply lt_IZR in L. symmetry. now apply Z.ltb_lt. + apply eq_IZR in L. now subst z. + apply lt_IZR in L. symmetry. apply Z.ltb_ge. lia.
  - destruct (fofZ z) as [s|s| |s m e p]; auto; discriminate K.
Qed.
Lemma arg_same k a v : stands_for k a v ->
  match k with KStr => to_str a = to_str (AVal v) | KBool => to_bool a = to_bool (AVal v) | KInt => to_int a = to_int (AVal v) | KFloat => to_double a = to_double (AVal v) end.
Proof.
  intros H. destruct H as [v R| |z N| | | |z x F B G| | ]; try reflexivity.
  - destruct v; cbn; auto.
  - cbn [to_bool]. rewrite (proj2 (Z.eqb_neq z 0) N). reflexivity.
  - cbn [to_double]. pose proof (fofZ_any z) as K.
    assert (L : Rlt_bool (Rabs (rnd (IZR z))) (bpow radix2 1024) = true).
    { apply Rlt_bool_true. rewrite <- B. apply abs_B2R_lt_emax. }
    rewrite L in K. destruct K as (K1 & K2 & K3). rewrite K1. f_equal. apply B2R_Bsign_inj; auto; congruence.
Qed.
(** C130: an argument of another Python type acts as the value it stands for; a number too large is refused with OverflowError, everything else
    with the signature error of Boost.Python; what is refused changes nothing *)
Theorem py_conversion w n o key k a : the w n = Some o -> is_tree (ocls o) = true ->
  let call f x := exec w (Call n (f k) [key_arg key; x]) in
  (forall v, stands_for k a v -> call set_name a = call set_name (AVal v) /\ call default_name a = call default_name (AVal v) /\ call create_name a = call create_name (AVal v)) /\
  (forall f, In f [set_name; default_name; create_name] -> too_large k a -> call f a = (w, Raised OverflowError)) /\
  (forall f, In f [set_name; default_name; create_name] -> ~ too_large k a -> ~ (exists v, stands_for k a v) -> call f a = (w, Raised ArgumentError)).
Proof.
  intros T C. cbv zeta.
  assert (PU : forall ans, put_tree w o (tree_of w o, ans) = (w, ans)).
  { intros ans. unfold put_tree, tree_of. cbn [fst snd]. rewrite hset_same. destruct w; reflexivity. }
  split; [|split].
  - intros v H. pose proof (arg_same k a v H) as E. cbn [PyTree_Model.exec]. rewrite T, (attr_set _ _ C), attr_default, (attr_create _ _ C). cbn [PyTree_Model.invoke key_arg to_str].
    destruct k; cbn [PyTree_Model.do_set PyTree_Model.do_get_default PyTree_Model.do_get_or_create with_kind]; rewrite E; auto.
  - intros f F (z & -> & L). cbn [PyTree_Model.exec]. rewrite T.
    assert (E : match k with KInt => to_int (AVal (PyInt z)) = Over | KFloat => to_double (AVal (PyInt z)) = Over | _ => False end).
    { destruct k; auto; cbn [to_int to_double].
      - destruct (int_arg z) eqn:I; auto. exfalso. apply L. unfold int_arg, INT_MIN, INT_MAX in I. apply andb_prop in I. destruct I as [I1 I2]. apply Z.leb_le in I1, I2. lia.
      - pose proof (fofZ_any z) as K. rewrite Rlt_bool_false in K by exact L. now rewrite K. }
    destruct F as [<-|[<-|[<-|[]]]]; [rewrite (attr_set _ _ C)|rewrite attr_default|rewrite (attr_create _ _ C)]; cbn [PyTree_Model.invoke key_arg to_str];
      destruct k; try (now destruct E); cbn [PyTree_Model.do_set PyTree_Model.do_get_default PyTree_Model.do_get_or_create with_kind]; rewrite E; auto.
  - intros f F L N. cbn [PyTree_Model.exec]. rewrite T.
    assert (E : match k with KStr => to_str a = Bad | KBool => to_bool a = Bad | KInt => to_int a = Bad | KFloat => to_double a = Bad end).
    { assert (N' : forall v, ~ stands_for k a v) by (intros v H; apply N; now exists v). clear N.
      destruct a as [m|v|]; [destruct k; reflexivity| |].
      - destruct k, v as [s|b|z|x|]; cbn [to_str to_bool to_int to_double]; try reflexivity; exfalso.
        + exact (N' (PyStr s) (sf_own (PyStr s) I)).
        + exact (N' (PyBool b) (sf_own (PyBool b) I)).
        + destruct (Z.eq_dec z 0) as [-> | Z0]; [exact (N' _ sf_zero)|exact (N' _ (sf_nonzero z Z0))].
        + destruct b; [exact (N' _ sf_true_int)|exact (N' _ sf_false_int)].
        + destruct (Z_le_dec (- 2 ^ 31) z) as [A|A]; [destruct (Z_lt_dec z (2 ^ 31)) as [B|B]|].
          * exact (N' (PyInt z) (sf_own (PyInt z) (conj A B))).
          * apply L. exists z. split; auto. lia.
          * apply L. exists z. split; auto. lia.
        + destruct b; [exact (N' _ sf_true_double)|exact (N' _ sf_false_double)].
        + pose proof (fofZ_any z) as K. destruct (Rlt_bool_spec (Rabs (rnd (IZR z))) (bpow radix2 1024)) as [Q|Q].
          * destruct K as (K1 & K2 & K3). exact (N' _ (sf_int_double z _ K1 K2 K3)).
          * apply L. exists z. split; auto.
        + exact (N' (PyFloat x) (sf_own (PyFloat x) I)).
      - destruct k; try reflexivity. exfalso. exact (N' _ sf_none). }
    destruct F as [<-|[<-|[<-|[]]]]; [rewrite (attr_set _ _ C)|rewrite attr_default|rewrite (attr_create _ _ C)]; cbn [PyTree_Model.invoke key_arg to_str];
      destruct k; cbn [PyTree_Model.do_set PyTree_Model.do_get_default PyTree_Model.do_get_or_create with_kind]; rewrite E; auto.
Qed.
(** ** children *)
(** C130: the three ways to open a child: reading k in it is reading c/k in the parent *)
Theorem py_child w n o b c k s : the w n = Some o -> ons o = view_text b -> Forall segment (b ++ c ++ k) -> c <> [] -> k <> [] ->
  (s = NewConst [AObj n; key_arg (rel_text c)] \/
   is_tree (ocls o) = true /\ (s = NewTree [AObj n; key_arg (rel_text c)] \/ s = Call n (str "getChild") [key_arg (rel_text c)])) ->
  exists m o', snd (exec w s) = PyObj m /\ the (fst (exec w s)) m = Some o' /\ oloc o' = oloc o /\ heap (fst (exec w s)) = heap w /\
    denotes (ons o') (rel_text k) (b ++ c ++ k) /\
    forall q, snd (exec (fst (exec w s)) (Call m (get_name q) [key_arg (rel_text k)])) = snd (exec w (Call n (get_name q) [key_arg (rel_text (c ++ k))])).
Proof.
  intros T B SG Nc Nk H.
  assert (SC : Forall segment c) by (rewrite !Forall_app in SG; tauto).
  assert (E : exists cl, exec w s = new_obj w (mkO cl (oloc o) (view_text (b ++ c)))).
  { rewrite <- (view_child_rel b c []) by auto. rewrite app_nil_r, <- B. destruct H as [-> | [I [-> | ->]]]; cbn [PyTree_Model.exec]; rewrite T; cbn [key_arg to_str].
    - exists CConst. reflexivity.
    - exists CTree. rewrite I. reflexivity.
    - exists CTree. assert (A : attribute (ocls o) (str "getChild") = Some MGetChild) by (destruct (ocls o); reflexivity). rewrite A. cbn [PyTree_Model.invoke key_arg to_str]. rewrite I. reflexivity. }
  destruct E as [cl E]. rewrite E. unfold new_obj. cbn [fst snd heap]. exists (length (objs w)), (mkO cl (oloc o) (view_text (b ++ c))).
  assert (N : the (mkW (objs w ++ [mkO cl (oloc o) (view_text (b ++ c))]) (heap w) (files w)) (length (objs w)) = Some (mkO cl (oloc o) (view_text (b ++ c)))).
  { unfold the. cbn [objs]. rewrite nth_error_app2 by lia. rewrite Nat.sub_diag. reflexivity. }
  assert (D1 : denotes (view_text (b ++ c)) (rel_text k) (b ++ c ++ k)).
  { rewrite app_assoc. pose proof (den_rel (b ++ c) k [] ltac:(now rewrite <- app_assoc) Nk ltac:(auto)) as D. rewrite app_nil_r in D. exact D. }
  split; auto. split; auto. split; auto. split; auto. split; auto. intros q.
  rewrite (exec_get _ _ _ q _ _ N D1).
  assert (D2 : denotes (ons o) (rel_text (c ++ k)) (b ++ c ++ k)).
  { rewrite B. pose proof (den_rel b (c ++ k) [] SG ltac:(destruct c; [congruence|discriminate]) ltac:(auto)) as D. rewrite app_nil_r in D. exact D. }
  rewrite (exec_get _ _ _ q _ _ T D2). reflexivity.
Qed.
(** ** update *)
(** C130: t.updateOrCreate(u): every key of u gets the value it has in u, every other key keeps its own *)
Theorem py_update w n o m u : sound w -> the w n = Some o -> ocls o = CBoost -> the w m = Some u -> ocls u = CBoost -> simple (tree_of w u) ->
  let w' := fst (exec w (Call n (str "updateOrCreate") [AObj m])) in
  snd (exec w (Call n (str "updateOrCreate") [AObj m])) = Nothing /\
  (forall i, i <> oloc o -> hget (heap w') i = hget (heap w) i) /\
  forall x ox kx y oy ky p, the w x = Some ox -> oloc ox = oloc o -> the w y = Some oy -> oloc oy = oloc u -> denotes (ons ox) kx p -> denotes (ons oy) ky p ->
    snd (exec w' (Call x (get_name KStr) [key_arg kx])) =
    match snd (exec w (Call y (get_name KStr) [key_arg ky])) with Value v => Value v | _ => snd (exec w (Call x (get_name KStr) [key_arg kx])) end.
Proof.
  intros S T C M CU SI. cbv zeta. assert (E : exec w (Call n (str "updateOrCreate") [AObj m]) = put_tree w o (of_update (update (tree_of w o) (tree_of w u) true false))).
  { cbn [PyTree_Model.exec]. rewrite T, C. change (attribute CBoost (str "updateOrCreate")) with (Some MUpdateOrCreate). cbn [PyTree_Model.invoke to_boost]. rewrite M, CU. reflexivity. }
  rewrite E. destruct (update_merge_partial (tree_of w o) (tree_of w u) SI) as (t' & U & V). rewrite U. cbn [of_update].
  pose proof (put_tree_spec w o (t', Nothing)) as (G & _ & _ & _ & FR & SM). split; [reflexivity|]. split; [exact FR|].
  assert (L : oloc o < length (heap w)) by (apply nth_error_In in T; unfold sound in S; rewrite Forall_forall in S; apply S; auto). specialize (SM L).
  intros x ox kx y oy ky p X EX Y EY DX DY. rewrite (exec_get _ x ox KStr kx p (the_grows _ _ _ _ G X) DX), (exec_get w y oy KStr ky p Y DY), (exec_get w x ox KStr kx p X DX). cbn [snd].
  unfold tree_of at 1. rewrite EX, SM. cbn [fst]. specialize (V (ons ox) kx p DX). rewrite !(getX_denotes parse_string _ _ _ _ DX) in V.
  assert (TY : tree_of w oy = tree_of w u) by (unfold tree_of; rewrite EY; reflexivity). assert (TX : tree_of w ox = tree_of w o) by (unfold tree_of; rewrite EX; reflexivity).
  rewrite TY, TX. unfold answer_of. cbn [reads parse_string option_map] in *.
  destruct (value_at t' p) as [a|], (value_at (tree_of w u) p) as [b'|], (value_at (tree_of w o) p) as [c'|]; cbn in *; congruence.
Qed.
(** the three forms of update *)
Theorem py_update_forms w n b c :
  exec w (Call n (str "updateOrCreate") [b]) = exec w (Call n (str "update") [b; AVal (PyBool true); AVal (PyBool false)]) /\
  exec w (Call n (str "updateWithEmptyUpdates") [b; c]) = exec w (Call n (str "update") [b; c; AVal (PyBool false)]).
Proof.
  cbn [PyTree_Model.exec]. destruct (the w n) as [o|]; auto.
  assert (A : attribute (ocls o) (str "updateOrCreate") = (if is_boost (ocls o) then Some MUpdateOrCreate else None) /\ attribute (ocls o) (str "update") = (if is_boost (ocls o) then Some MUpdate else None) /\
    attribute (ocls o) (str "updateWithEmptyUpdates") = (if is_boost (ocls o) then Some MUpdateWithEmpty else None)) by (destruct (ocls o); auto).
  destruct A as (-> & -> & ->). destruct (is_boost (ocls o)); auto.
Qed.
(** ** histories *)
Definition reading (s : stmt) : Prop := match s with Call _ name _ => ~ changing name | _ => True end.
(** a program of sets through any objects, with anything that only reads or creates objects in between; and the writes (tree, path, value) it makes *)
Inductive history : world -> list stmt -> list (nat * list bytes * pyval) -> Prop :=
| h_nil w : history w [] []
| h_read w s prog h : reading s -> history (fst (exec w s)) prog h -> history w (s :: prog) h
| h_set w n o key p v prog h : the w n = Some o -> is_tree (ocls o) = true -> denotes (ons o) key p -> storable v ->
    history (fst (exec w (Call n (set_name (kind_of v)) [key_arg key; AVal v]))) prog h ->
    history w (Call n (set_name (kind_of v)) [key_arg key; AVal v] :: prog) ((oloc o, p, v) :: h).
Fixpoint last_write (h : list (nat * list bytes * pyval)) (i : nat) (q : list bytes) : option pyval :=
  match h with
  | [] => None
  | (j, p, v) :: r => match last_write r i q with Some u => Some u | None => if Nat.eq_dec j i then if path_eq_dec q p then Some v else None else None end
  end.
(** some write to tree i below q *)
Definition below (h : list (nat * list bytes * pyval)) (i : nat) (q : list bytes) : Prop := Exists (fun e => fst (fst e) = i /\ ancestor q (snd (fst e))) h.
Lemma run_cons w s prog : fst (run w (s :: prog)) = fst (run (fst (exec w s)) prog).
Proof. cbn [PyTree_Model.run]. destruct (exec w s) as [w1 a]. cbn [fst]. destruct (run w1 prog). reflexivity. Qed.
Lemma hget_snoc w i : hget (w ++ [pempty]) i = hget w i.
Proof.
  unfold hget. destruct (Nat.lt_ge_cases i (length w)) as [L|L]; [apply app_nth1; auto|]. rewrite app_nth2, (nth_overflow w) by lia.
  destruct (i - length w) as [|[|x]]; reflexivity.
Qed.
Lemma reading_heap w s i : reading s -> hget (heap (fst (exec w s))) i = hget (heap w) i.
Proof.
  intros R. destruct (exec_step w s) as [s a|l s|s o c ns I K B|n name args o r T K N|n name args fs a N]; cbn; auto.
  - apply hget_snoc. - cbn in R. tauto.
Qed.
Lemma history_values w prog h : sound w -> history w prog h -> forall i q, 
  match last_write h i q with
  | Some v => value_at (hget (heap (fst (run w prog))) i) q = Some (text prec v) /\ storable v
  | None => (value_at (hget (heap w) i) q <> None -> value_at (hget (heap (fst (run w prog))) i) q = value_at (hget (heap w) i) q) /\
            (value_at (hget (heap w) i) q = None -> below h i q -> value_at (hget (heap (fst (run w prog))) i) q = Some []) /\
            (value_at (hget (heap w) i) q = None -> ~ below h i q -> value_at (hget (heap (fst (run w prog))) i) q = None)
  end.
Proof.
  intros S H. revert S. induction H as [w|w s prog h R H IH|w n o key p v prog h T C D ST H IH]; intros S i q.
  - cbn. split; auto. split; auto. intros _ B. inversion B.
  - rewrite run_cons. pose proof (exec_grows w s S) as [_ S1]. specialize (IH S1 i q). rewrite (reading_heap w s i R) in IH. exact IH.
  - rewrite run_cons. set (s := Call n (set_name (kind_of v)) [key_arg key; AVal v]) in *. pose proof (exec_grows w s S) as [_ S1]. specialize (IH S1 i q).
    assert (R : in_range v) by (destruct v; cbn in *; auto). pose proof (exec_set w n o key p v T C D R) as E. fold s in E.
    pose proof (put_tree_spec w o (put_comps (tree_of w o) p (text prec v), Nothing)) as (_ & _ & _ & _ & FR & SM). rewrite <- E in FR, SM.
    assert (L : oloc o < length (heap w)) by (apply nth_error_In in T; unfold sound in S; rewrite Forall_forall in S; apply S; auto). specialize (SM L). cbn [fst] in SM.
    cbn [last_write]. destruct (last_write h i q) as [u|]; [exact IH|]. set (w1 := fst (exec w s)) in *. destruct IH as (I1 & I2 & I3).
    destruct (Nat.eq_dec (oloc o) i) as [<-|NE].
    + rewrite SM in *. rewrite !put_value_at in *. fold (tree_of w o). destruct (path_eq_dec q p) as [->|NQ].
      * split; auto. apply I1. discriminate.
      * assert (PA : pre q p = true <-> ancestor q p) by apply pre_spec.
        destruct (value_at (tree_of w o) q) as [d|] eqn:V; [|destruct (pre q p) eqn:P].
        -- split; [intros _; apply I1; discriminate|]. split; intros X; discriminate X.
        -- split; [congruence|]. split; [intros _ _; apply I1; discriminate|]. intros _ NB. exfalso. apply NB. left. cbn. split; auto. apply PA. auto.
        -- split; [congruence|]. split; intros _ B.
           ++ apply I2; auto. apply Exists_cons in B. destruct B as [[_ X]|B]; [|exact B]. cbn in X. apply PA in X. discriminate X.
           ++ apply I3; auto. intros X. apply B. right. exact X.
    + rewrite FR in * by auto. split; [exact I1|]. split; intros V B.
      * apply I2; auto. apply Exists_cons in B. destruct B as [[X _]|B]; [|exact B]. cbn in X. congruence.
      * apply I3; auto. intros X. apply B. right. exact X.
Qed.
(** C130: after such a program every key of every tree reads, through every object, as it was last set; keys that were not set keep their values; the only keys
    that appear are those above a key that was set, with an empty text *)
Theorem py_history w prog h m o key q : sound w -> history w prog h -> let w' := fst (run w prog) in
  the w' m = Some o -> denotes (ons o) key q ->
  match last_write h (oloc o) q with
  | Some v => snd (exec w' (Call m (get_name (kind_of v)) [key_arg key])) = Value v
  | None =>
      (the w m = Some o -> snd (exec w (Call m (str "doesKeyExist") [key_arg key])) = Value (PyBool true) ->
         forall k, snd (exec w' (Call m (get_name k) [key_arg key])) = snd (exec w (Call m (get_name k) [key_arg key]))) /\
      (length (heap w) <= oloc o \/ the w m = Some o /\ snd (exec w (Call m (str "doesKeyExist") [key_arg key])) = Value (PyBool false) ->
         (below h (oloc o) q -> snd (exec w' (Call m (get_name KStr) [key_arg key])) = Value (PyStr [])) /\
         (~ below h (oloc o) q -> snd (exec w' (Call m (str "doesKeyExist") [key_arg key])) = Value (PyBool false)))
  end.
Proof.
  intros S H w' T D. pose proof (history_values w prog h S H (oloc o) q) as V. fold w' in V. fold (tree_of w' o) in V. destruct (last_write h (oloc o) q) as [v|].
  - destruct V as [V ST]. rewrite (exec_get w' m o _ key q T D). cbn [snd]. rewrite V. unfold answer_of. rewrite reads_text; auto.
  - destruct V as (V1 & V2 & V3). split.
    + intros T0 EX k. rewrite (exec_exists w m o key q T0 D) in EX. cbn [snd] in EX. rewrite (exec_get w' m o k key q T D), (exec_get w m o k key q T0 D). cbn [snd].
      rewrite V1; [reflexivity|]. fold (tree_of w o). destruct (value_at (tree_of w o) q); [discriminate|discriminate EX].
    + intros N. assert (N0 : value_at (hget (heap w) (oloc o)) q = None).
      { destruct N as [N|[T0 EX]].
        - unfold hget. rewrite nth_overflow by exact N. destruct (denotes_qualified _ _ _ D) as (_ & NE & _). destruct q; [congruence|reflexivity].
        - rewrite (exec_exists w m o key q T0 D) in EX. cbn [snd] in EX. fold (tree_of w o). destruct (value_at (tree_of w o) q); [discriminate EX|reflexivity]. }
      split; intros B; [rewrite (exec_get w' m o _ key q T D), (V2 N0 B); reflexivity|rewrite (exec_exists w' m o key q T D), (V3 N0 B); reflexivity].
Qed.
(** ** files *)
(** the trees a format can hold (C125, C121, C120), and the names of its methods *)
Definition fits (f : format) (t : ptree) : Prop :=
  match f with XML => xml_tree false false t | INI => ini_tree t | INFO => everywhere no_hash t /\ everywhere no_clash t /\ pdata t = [] | JSON => False end.
Definition load_name (f : format) : bytes := match f with XML => str "loadXml" | INI => str "loadIni" | INFO => str "loadInfo" | JSON => [] end.
Definition save_name (f : format) : bytes := match f with XML => str "saveXml" | INI => str "saveIni" | INFO => str "saveInfo" | JSON => [] end.
Lemma attr_file f : f <> JSON -> attribute CBoost (load_name f) = Some (MLoad f) /\ attribute CBoost (save_name f) = Some (MSave f).
Proof. destruct f; intros N; try congruence; auto. Qed.
(** C130: saving one BoostPropertyTree and loading the file into another makes every key read the same in both *)
Theorem py_files w n o m u f path : sound w -> the w n = Some o -> ocls o = CBoost -> the w m = Some u -> ocls u = CBoost -> fits f (tree_of w o) ->
  let w1 := fst (exec w (Call n (save_name f) [key_arg path])) in let w2 := fst (exec w1 (Call m (load_name f) [key_arg path])) in
  snd (exec w (Call n (save_name f) [key_arg path])) = Nothing /\ snd (exec w1 (Call m (load_name f) [key_arg path])) = Nothing /\
  heap w1 = heap w /\ (forall i, i <> oloc u -> hget (heap w2) i = hget (heap w) i) /\
  forall x ox kx y oy ky p k, the w x = Some ox -> oloc ox = oloc o -> the w y = Some oy -> oloc oy = oloc u -> denotes (ons ox) kx p -> denotes (ons oy) ky p ->
    snd (exec w2 (Call y (get_name k) [key_arg ky])) = snd (exec w (Call x (get_name k) [key_arg kx])).
Proof.
  intros S T C M CU FT. cbv zeta. assert (NJ : f <> JSON) by (intros ->; exact FT). destruct (attr_file f NJ) as [AL AS].
  assert (X : exists c t', do_save f (files w) path (tree_of w o) = (fs_write (files w) path c, Nothing) /\
    do_load f (fs_write (files w) path c) path (tree_of w u) = (t', Nothing) /\ forall p, p <> [] -> value_at t' p = value_at (tree_of w o) p).
  { assert (FW : forall c, fs_write (files w) path c path = Some c) by (intros c; unfold fs_write; rewrite bytes_eqb_refl; reflexivity).
    set (t := tree_of w o) in *. set (old := tree_of w u). clearbody t old. destruct f; cbn [fits] in FT; try tauto.
    - exists (saveXml false t), t. split; [reflexivity|]. split; [|auto]. unfold do_load. rewrite FW, xml_roundtrip; auto.
    - destruct (ini_roundtrip t old FT) as (c & SV & LD & V). exists c, (fst (loadIni old c)). unfold do_save, do_load. rewrite SV, FW. split; auto. split; [rewrite LD; reflexivity|]. intros p _. apply V.
    - destruct FT as (H1 & H2 & H3). exists (saveInfo t), (Node [] (pkids t)). split; [reflexivity|]. split; [unfold do_load; rewrite FW, info_roundtrip_partial; auto|].
      intros [|b p] NE; [congruence|]. destruct t. reflexivity. }
  destruct X as (c & t' & SV & LD & V).
  assert (E1 : exec w (Call n (save_name f) [key_arg path]) = (mkW (objs w) (heap w) (fs_write (files w) path c), Nothing)).
  { cbn [PyTree_Model.exec]. rewrite T, C, AS. cbn [PyTree_Model.invoke key_arg to_str]. rewrite SV. reflexivity. }
  rewrite E1. cbn [fst snd]. set (w1 := mkW (objs w) (heap w) (fs_write (files w) path c)).
  assert (E2 : exec w1 (Call m (load_name f) [key_arg path]) = put_tree w1 u (t', Nothing)).
  { cbn [PyTree_Model.exec]. change (the w1 m) with (the w m). rewrite M, CU, AL. cbn [PyTree_Model.invoke key_arg to_str]. change (files w1) with (fs_write (files w) path c).
    change (tree_of w1 u) with (tree_of w u). rewrite LD. reflexivity. }
  rewrite E2. split; auto. split; auto. split; auto. pose proof (put_tree_spec w1 u (t', Nothing)) as (G & _ & _ & _ & FR & SM). split; [exact FR|].
  assert (L : oloc u < length (heap w1)) by (apply nth_error_In in M; unfold sound in S; rewrite Forall_forall in S; apply (S u); auto). specialize (SM L).
  intros x ox kx y oy ky p k HX EX HY EY DX DY. rewrite (exec_get w x ox k kx p HX DX).
  assert (HY' : the w1 y = Some oy) by exact HY. rewrite (exec_get _ y oy k ky p (the_grows _ _ _ _ G HY') DY). cbn [snd]. f_equal. unfold tree_of at 1. rewrite EY, SM. cbn [fst].
  rewrite V; [unfold tree_of; rewrite EX; reflexivity|]. destruct (denotes_qualified _ _ _ DX) as (_ & NE & _). exact NE.
Qed.
(** ** Refuted: a ConstPropertyTree has no usable getChild (it is bound to PropertyTree::getChild) ... *)
Theorem py_const_getChild_refuted w n o args : the w n = Some o -> ocls o = CConst -> exec w (Call n (str "getChild") args) = (w, Raised ArgumentError).
Proof.
  intros T C. cbn [PyTree_Model.exec]. rewrite T, C. change (attribute CConst (str "getChild")) with (Some MGetChild). cbn [PyTree_Model.invoke].
  destruct args as [|a [|b l]]; try reflexivity. rewrite C. reflexivity.
Qed.
(** ... there is no getOrCreateBool on any class (the name is misspelt), and JSON files cannot be read or written *)
Theorem py_missing_refuted w n o args name : the w n = Some o -> In name [str "getOrCreateBool"; str "loadJson"; str "saveJson"; str "load"; str "save"; str "getChildren"] ->
  exec w (Call n name args) = (w, Raised AttributeError).
Proof.
  intros T I. cbn [PyTree_Model.exec]. rewrite T. assert (A : attribute (ocls o) name = None); [|rewrite A; reflexivity].
  cbn [In] in I. repeat (destruct I as [<-|I]; [destruct (ocls o); reflexivity|]). destruct I.
Qed.
End P.
(** ** Non-vacuity *)
Definition fs0 : fsys := fun _ => None.
Definition prog0 : list stmt :=
  [NewBoost [];
   Call 0 (str "setInt") [key_arg (str "cam/fps"); AVal (PyInt 30)];
   Call 0 (str "getChild") [key_arg (str "cam")];
   NewConst [AObj 1; key_arg (str "lens")];
   Call 1 (str "setString") [key_arg (str "lens/name"); AVal (PyStr (str "wide"))];
   Call 2 (str "getString") [key_arg (str "name")];
   Call 2 (str "getIntDefault") [key_arg (str "f"); AVal (PyInt 8)];
   Call 2 (str "doesKeyExist") [key_arg (str "f")];
   Call 2 (str "setString") [key_arg (str "name"); AVal (PyStr [])];
   Call 2 (str "getChild") [key_arg (str "x")];
   Call 1 (str "getOrCreateInt") [key_arg (str "lens/f"); AVal (PyInt 8)];
   Call 2 (str "getInt") [key_arg (str "f")];
   NewTree [AObj 2; key_arg (str "x")];
   Call 0 (str "getInt") [key_arg (str "cam")]].
Example py_tree_case : snd (run 17 (mkW [] [] fs0) prog0) =
  [PyObj 0; Nothing; PyObj 1; PyObj 2; Nothing; Value (PyStr (str "wide")); Value (PyInt 8); Value (PyBool false); Raised AttributeError; Raised ArgumentError;
   Value (PyInt 8); Value (PyInt 8); Raised ArgumentError; Raised RuntimeError].
Proof. vm_compute. reflexivity. Qed.
Lemma get_not_changing k : ~ changing (get_name k).
Proof.
  intros [[k' [H|H]]|H].
  - destruct k, k'; discriminate H.
  - destruct k, k'; discriminate H.
  - cbn [In] in H. repeat (destruct H as [H|H]; [destruct k; discriminate H|]). exact H.
Qed.
(** the hypotheses of py_history hold of a program with a tree, a child and a set through each *)
Example py_history_case : sound (mkW [] [] fs0) /\
  history 17 (mkW [] [] fs0)
    [NewBoost []; NewTree [AObj 0; key_arg (str "cam")]; Call 0 (str "setInt") [key_arg (str "cam/fps"); AVal (PyInt 30)]; Call 1 (str "getInt") [key_arg (str "fps")];
     Call 1 (str "setString") [key_arg (str "fps"); AVal (PyStr (str "x"))]]
    [(0, [str "cam"; str "fps"], PyInt 30); (0, [str "cam"; str "fps"], PyStr (str "x"))].
Proof.
  assert (SG : Forall segment [str "cam"; str "fps"]).
  { repeat constructor; try discriminate; cbn; intros H; repeat (destruct H as [H|H]; [discriminate H|]); exact H. }
  split; [constructor|]. apply h_read; [exact I|]. apply h_read; [exact I|].
  eapply (h_set 17 _ 0 (mkO CBoost 0 (view_root [])) (str "cam/fps") [str "cam"; str "fps"] (PyInt 30)); [reflexivity|reflexivity| |cbn; lia|].
  { cbn [ons]. exact (den_rel [] [str "cam"; str "fps"] [] SG ltac:(discriminate) ltac:(auto)). }
  apply h_read; [exact (get_not_changing KInt)|].
  eapply (h_set 17 _ 1 (mkO CTree 0 (view_child (view_root []) (str "cam"))) (str "fps") [str "cam"; str "fps"] (PyStr (str "x"))); [reflexivity|reflexivity| |exact I|apply h_nil].
  exact (den_rel [str "cam"] [str "fps"] [] SG ltac:(discriminate) ltac:(auto)).
Qed.
Print Assumptions py_history.
Print Assumptions py_const_objects_safe.
(** arguments of other types *)
Example py_conversion_case : snd (run 17 (mkW [] [] fs0)
  [NewBoost []; Call 0 (str "setBool") [key_arg (str "b"); AVal (PyInt 2)]; Call 0 (str "getBool") [key_arg (str "b")];
   Call 0 (str "setInt") [key_arg (str "b"); AVal (PyInt (2 ^ 31))]; Call 0 (str "setDouble") [key_arg (str "d"); AVal (PyInt (2 ^ 1024))];
   Call 0 (str "setInt") [key_arg (str "i"); AVal (PyBool true)]; Call 0 (str "getInt") [key_arg (str "i")];
   Call 0 (str "setString") [key_arg (str "i"); AVal (PyInt 3)]; Call 0 (str "getString") [key_arg (str "i")]]) =
  [PyObj 0; Nothing; Value (PyBool true); Raised OverflowError; Raised OverflowError; Nothing; Value (PyInt 1); Raised ArgumentError; Value (PyStr (str "1"))].
Proof. vm_compute. reflexivity. Qed.
