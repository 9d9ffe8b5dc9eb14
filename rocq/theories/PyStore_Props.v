(** C114: setting values from Python. *)
From Verif Require Import Bytes Float64 PTree_Model PTree_Spec PTree_Proofs PTree_Props ValueStore_Model ValueStore_Spec ValueStore_Proofs.
From Verif Require Import DoubleText_Model DoubleText_Props PyStore_Model.
Open Scope nat_scope.

(** ** Specification *)
(** The Python type of a value. *)
Definition kind_of (v : pyval) : kind := match v with PyStr _ => KStr | PyBool _ => KBool | PyInt _ => KInt | PyFloat _ | PyOther => KFloat end.
(** Values the store can represent: any str and bool, ints of 32 bits, finite floats (with 17 printed digits). *)
Definition storable (prec : nat) (v : pyval) : Prop :=
  match v with
  | PyStr _ | PyBool _ => True
  | PyInt z => (- 2 ^ 31 <= z < 2 ^ 31)%Z
  | PyFloat x => is_finite x = true /\ 17 <= prec
  | PyOther => False
  end.
(** The value a key was last set to. *)
Fixpoint last_set (h : list (list bytes * pyval)) (q : list bytes) : option pyval :=
  match h with
  | [] => None
  | (p, v) :: r => match last_set r q with Some u => Some u | None => if list_eq_dec bytes_eq_dec p q then Some v else None end
  end.

(** ** Proofs *)
Section P.
Variables (junk ndebug : bool) (prec : nat).
Notation py_get := (py_get junk). Notation py_set := (py_set junk ndebug prec). Notation py_sets := (py_sets junk ndebug prec).
Notation py_hasKey := (py_hasKey junk).
Definition reads (k : kind) (d : bytes) : option pyval :=
  match k with KStr => option_map PyStr (parse_string d) | KBool => option_map PyBool (parse_bool d) | KInt => option_map PyInt (parse_int d) | KFloat => option_map PyFloat (parse_double d) end.
Definition text (v : pyval) : bytes := match v with PyStr s => s | PyBool b => print_bool b | PyInt z => print_int z | PyFloat x => print_double prec x | PyOther => [] end.
Lemma reads_text v : storable prec v -> reads (kind_of v) (text v) = Some v.
Proof.
  destruct translators_faithful as (F1 & F2 & F3). destruct v; cbn [storable kind_of reads text]; intros H.
  - reflexivity.
  - rewrite (F3 b). reflexivity.
  - rewrite (F2 z H). reflexivity.
  - rewrite double_text_roundtrip; tauto.
  - destruct H.
Qed.
Lemma getter_eq A (tr : bytes -> option A) V0 w loc ns key p : denotes ns key p ->
  getter junk tr V0 w (PT loc ns) key = match value_at (hget w loc) p with None => VThrow | Some d => match tr d with Some a => VOk a | None => VThrow end end.
Proof.
  intros D. unfold getter. cbn [get]. unfold getFromPt. rewrite (getX_denotes tr _ _ _ _ D). destruct (value_at (hget w loc) p) as [d|] eqn:E; auto.
  destruct (tr d) as [a|] eqn:T; auto. cbn [handle_get]. rewrite (getX_denotes tr _ _ _ _ D), E, T. reflexivity.
Qed.
Lemma py_get_eq k w loc ns key p : denotes ns key p ->
  py_get k w (PT loc ns) key = match value_at (hget w loc) p with None => VThrow | Some d => match reads k d with Some a => VOk a | None => VThrow end end.
Proof.
  intros D. destruct k; cbn [PyStore_Model.py_get reads]; rewrite (getter_eq _ _ _ w loc ns key p D); destruct (value_at (hget w loc) p) as [d|]; auto.
  - destruct (parse_bool d); auto.
  - destruct (parse_int d); auto.
  - destruct (parse_double d); auto.
Qed.
(** getX(path, default): the stored value if there is one of this type, the default otherwise; nothing is changed *)
Theorem getter_default_exact A (tr : bytes -> option A) (V0 d : A) w loc ns key p : denotes ns key p ->
  getter_default junk tr V0 w (PT loc ns) key d =
  (w, VOk (match value_at (hget w loc) p with None => d | Some t => match tr t with Some a => a | None => d end end)).
Proof.
  intros D. unfold getter_default. cbn [get]. unfold getFromPt. cbn [handle_get]. unfold getX_default, imp_get_default.
  rewrite (getopt_denotes tr _ _ _ _ D). destruct (value_at (hget w loc) p) as [t|]; auto.
Qed.
Lemma hasKey_eq w loc ns key p : denotes ns key p -> py_hasKey w (PT loc ns) key = match value_at (hget w loc) p with None => false | Some _ => true end.
Proof. intros D. unfold PyStore_Model.py_hasKey. cbn [hasKey]. apply exist_denotes; auto. Qed.
Lemma adder_eq A (pr : A -> bytes) w loc ns key p v : denotes ns key p ->
  adder pr w (PT loc ns) key v = (hset w loc (put_comps (hget w loc) p (pr v)), PDone).
Proof. intros D. unfold adder. cbn [add]. rewrite (setX_denotes pr _ _ _ _ v D). reflexivity. Qed.
Lemma setter_eq A (tr : bytes -> option A) pr V0 w loc ns key p v : denotes ns key p ->
  setter junk ndebug tr pr V0 w (PT loc ns) key v =
  match value_at (hget w loc) p with
  | Some d => match tr d with Some _ => (hset w loc (put_comps (hget w loc) p (pr v)), PDone) | None => (w, PRaised) end
  | None => (w, PRaised)
  end.
Proof.
  intros D. unfold setter. cbn [get]. unfold getFromPt. rewrite (getX_denotes tr _ _ _ _ D). destruct (value_at (hget w loc) p) as [d|]; auto.
  destruct (tr d); auto. cbn [handle_update]. rewrite (setX_denotes pr _ _ _ _ v D). reflexivity.
Qed.
Definition in_range (v : pyval) : Prop := match v with PyInt z => (- 2 ^ 31 <= z < 2 ^ 31)%Z | PyOther => False | _ => True end.
Lemma py_set_eq w loc ns key p v aim fa : denotes ns key p -> in_range v ->
  py_set w (PT loc ns) key v aim fa =
  (let ok := (hset w loc (put_comps (hget w loc) p (text v)), PDone) in
   if aim && (negb (py_hasKey w (PT loc ns) key) || fa) then ok else
   match value_at (hget w loc) p with
   | Some d => match reads (kind_of v) d with Some _ => ok | None => (w, PRaised) end
   | None => (w, PRaised)
   end).
Proof.
  intros D R. unfold PyStore_Model.py_set. cbv zeta. destruct v as [x|x|x|x|]; cbn [kind_of reads text]; try contradiction.
  3:{ assert (I : int_arg x = true). { unfold int_arg. cbn [in_range] in R. apply andb_true_intro; split; apply Z.leb_le; unfold INT_MIN, INT_MAX; lia. }
      rewrite I. cbn [negb]. rewrite (adder_eq _ _ _ _ _ _ _ _ D), (setter_eq _ _ _ _ _ _ _ _ _ _ D). destruct (_ && _); auto.
      destruct (value_at (hget w loc) p) as [d|]; auto. destruct (parse_int d); auto. }
  all: rewrite (adder_eq _ _ _ _ _ _ _ _ D), (setter_eq _ _ _ _ _ _ _ _ _ _ D); destruct (_ && _); auto;
    destruct (value_at (hget w loc) p) as [d|]; auto.
  - destruct (parse_bool d); auto.
  - destruct (parse_double d); auto.
Qed.

(** ** C114 *)
(** What set does: a value of another type is logged and ignored, an int of more than 32 bits is refused; otherwise the value is stored if the key is
    to be added, or if it exists and its present text can be read as a value of the same type; in all other cases set raises and changes nothing. *)
Theorem py_set_exact : forall w loc ns key p v aim fa, loc < length w -> denotes ns key p ->
  match v with
  | PyOther => py_set w (PT loc ns) key v aim fa = (w, PLogged)
  | PyInt z => ~ (- 2 ^ 31 <= z < 2 ^ 31)%Z -> py_set w (PT loc ns) key v aim fa = (w, PRaised)
  | _ => True
  end /\
  (in_range v ->
   ((aim = true /\ (py_hasKey w (PT loc ns) key = false \/ fa = true)) \/ (exists u, py_get (kind_of v) w (PT loc ns) key = VOk u) ->
     exists w', py_set w (PT loc ns) key v aim fa = (w', PDone)) /\
   (~ (aim = true /\ (py_hasKey w (PT loc ns) key = false \/ fa = true)) -> (forall u, py_get (kind_of v) w (PT loc ns) key <> VOk u) ->
     py_set w (PT loc ns) key v aim fa = (w, PRaised))).
Proof.
  intros w loc ns key p v aim fa L D. split.
  - destruct v; auto. intros H. unfold PyStore_Model.py_set. cbv zeta. replace (int_arg z) with false; auto. symmetry. unfold int_arg, INT_MIN, INT_MAX.
    apply Bool.not_true_is_false. intros E. apply andb_true_iff in E as [E1 E2]. apply Z.leb_le in E1, E2. apply H. lia.
  - intros R. rewrite (py_set_eq w loc ns key p v aim fa D R). cbv zeta. rewrite (py_get_eq _ w loc ns key p D).
    split.
    + intros [[-> H]|(u & H)].
      * replace (true && _) with true; [eauto|]. destruct H as [-> | ->]; cbn; auto. rewrite Bool.orb_true_r. auto.
      * destruct (_ && _); eauto. destruct (value_at (hget w loc) p) as [d|]; [|discriminate]. destruct (reads (kind_of v) d); [eauto|discriminate].
    + intros NA NG. replace (aim && _) with false.
      * destruct (value_at (hget w loc) p) as [d|]; auto. destruct (reads (kind_of v) d) as [u|]; auto. exfalso. eapply NG; eauto.
      * symmetry. apply Bool.not_true_is_false. intros E. apply andb_true_iff in E as [-> E]. apply NA. split; auto. apply orb_true_iff in E as [E|E]; auto. apply negb_true_iff in E. auto.
Qed.
(** When set returns, the value can be read back with the getter of its type, through every view; the other keys and the other trees are as before,
    except that missing ancestors now exist, with an empty text. *)
Theorem py_set_then_get : forall w loc ns key p v aim fa w', loc < length w -> denotes ns key p -> storable prec v ->
  py_set w (PT loc ns) key v aim fa = (w', PDone) ->
  (forall ns' key', denotes ns' key' p -> py_get (kind_of v) w' (PT loc ns') key' = VOk v /\ py_hasKey w' (PT loc ns') key' = true) /\
  (forall ns' key' q, denotes ns' key' q -> q <> p ->
     (py_hasKey w (PT loc ns') key' = true ->
        py_hasKey w' (PT loc ns') key' = true /\ forall k, py_get k w' (PT loc ns') key' = py_get k w (PT loc ns') key') /\
     (py_hasKey w (PT loc ns') key' = false -> ancestor q p -> py_get KStr w' (PT loc ns') key' = VOk (PyStr [])) /\
     (py_hasKey w (PT loc ns') key' = false -> ~ ancestor q p -> py_hasKey w' (PT loc ns') key' = false)) /\
  (forall l, l <> loc -> hget w' l = hget w l).
Proof.
  intros w loc ns key p v aim fa w' L D S E.
  assert (R : in_range v) by (destruct v; cbn in *; auto).
  assert (W : w' = hset w loc (put_comps (hget w loc) p (text v))).
  { rewrite (py_set_eq w loc ns key p v aim fa D R) in E. cbv zeta in E. destruct (_ && _); [congruence|].
    destruct (value_at (hget w loc) p) as [d|]; [|discriminate]. destruct (reads (kind_of v) d); [congruence|discriminate]. }
  subst w'. split; [|split].
  - intros ns' key' D'. rewrite (py_get_eq _ _ loc ns' key' p D'), (hasKey_eq _ loc ns' key' p D'), hget_hset, put_same by auto. rewrite reads_text; auto.
  - intros ns' key' q D' N.
    assert (V : value_at (put_comps (hget w loc) p (text v)) q = match value_at (hget w loc) q with Some x => Some x | None => if pre q p then Some [] else None end).
    { rewrite put_value_at. destruct (path_eq_dec q p); [congruence|auto]. }
    rewrite !(hasKey_eq _ loc ns' key' q D'), hget_hset, V by auto. split; [|split].
    + destruct (value_at (hget w loc) q) eqn:X; [|discriminate]. intros _. split; auto. intros k. rewrite !(py_get_eq _ _ loc ns' key' q D'), hget_hset by auto. rewrite V. try rewrite X. auto.
    + destruct (value_at (hget w loc) q) eqn:X; [discriminate|]. intros _ An. rewrite (py_get_eq _ _ loc ns' key' q D'), hget_hset by auto. rewrite V. try rewrite X. apply pre_spec in An. rewrite An. auto.
    + destruct (value_at (hget w loc) q) eqn:X; [discriminate|]. intros _ An. destruct (pre q p) eqn:P; auto. exfalso. apply An, pre_spec. auto.
  - intros l N. apply hget_hset_other. auto.
Qed.

(** ** Histories *)
Lemma last_set_app h p v q : last_set (h ++ [(p, v)]) q = if list_eq_dec bytes_eq_dec p q then Some v else last_set h q.
Proof.
  induction h as [|[p' v'] h IH]; cbn [app last_set].
  - destruct (list_eq_dec bytes_eq_dec p q); auto.
  - rewrite IH. destruct (list_eq_dec bytes_eq_dec p q); auto.
Qed.
Lemma last_set_in h q v : last_set h q = Some v -> In (q, v) h.
Proof.
  induction h as [|[p u] h IH]; cbn [last_set]; [discriminate|]. destruct (last_set h q) as [x|].
  - intros E. right. apply IH. exact E.
  - destruct (list_eq_dec bytes_eq_dec p q) as [->|]; [|discriminate]. intros E. left. congruence.
Qed.
Lemma last_set_none h q : last_set h q = None -> ~ In q (map fst h).
Proof.
  induction h as [|[p u] h IH]; cbn [last_set map fst]; [intros _ []|]. destruct (last_set h q) as [x|]; [discriminate|].
  destruct (list_eq_dec bytes_eq_dec p q); [discriminate|]. intros _ [X|X]; [congruence|]. apply IH; auto.
Qed.
Lemma py_sets_app w s l1 l2 : py_sets w s (l1 ++ l2) = match py_sets w s l1 with (w', PDone) => py_sets w' s l2 | x => x end.
Proof.
  revert w. induction l1 as [|[k v] l1 IH]; intros w; cbn [app PyStore_Model.py_sets]; auto.
  destruct (py_set w s k v true false) as [w' []]; auto.
Qed.
Lemma hset_length w l t : length (hset w l t) = length w.
Proof. revert l. induction w as [|x w IH]; intros [|l]; cbn; auto. Qed.
(** One type per key, and values other than strings only at keys that are not above other keys: *)
Definition well_typed (h : list (list bytes * pyval)) : Prop :=
  (forall p v u, In (p, v) h -> In (p, u) h -> kind_of v = kind_of u) /\
  (forall p v q u, In (p, v) h -> In (q, u) h -> ancestor p q -> kind_of v = KStr).
(** then a store that was empty at the start is a dictionary: every set returns, and every key reads as what it was last set to; the keys above them
    exist, with an empty text, and no others. *)
Theorem py_sets_dictionary : forall w loc ns l h, loc < length w -> hget w loc = pempty ->
  Forall2 (fun kv pv => denotes ns (fst kv) (fst pv) /\ snd kv = snd pv) l h -> Forall (fun pv => storable prec (snd pv)) h -> well_typed h ->
  exists w', py_sets w (PT loc ns) l = (w', PDone) /\
    (forall ns' key q, denotes ns' key q ->
       match last_set h q with
       | Some v => py_get (kind_of v) w' (PT loc ns') key = VOk v
       | None => (Exists (fun pv => ancestor q (fst pv)) h -> py_get KStr w' (PT loc ns') key = VOk (PyStr [])) /\
                 (~ Exists (fun pv => ancestor q (fst pv)) h -> py_hasKey w' (PT loc ns') key = false)
       end) /\
    (forall l, l <> loc -> hget w' l = hget w l).
Proof.
  intros w loc ns l h L E F S T.
  assert (X : exists w', py_sets w (PT loc ns) l = (w', PDone) /\ loc < length w' /\
    (forall q, q <> [] -> value_at (hget w' loc) q = match last_set h q with Some v => Some (text v) | None => if existsb (fun pv => pre q (fst pv)) h then Some [] else None end) /\
    (forall l, l <> loc -> hget w' l = hget w l)).
  { revert l F S T. induction h as [|[p v] h IH] using rev_ind; intros l F S T.
    - inversion F; subst. exists w. split; [reflexivity|]. split; auto. split; auto. intros q N. rewrite E. destruct q as [|k q]; [congruence|]. reflexivity.
    - apply Forall2_app_inv_r in F as (l1 & l2 & F1 & F2 & ->). inversion F2 as [|[key v'] ? l2' ? [D EV] F3]; subst. inversion F3; subst. clear F2 F3. cbn [fst snd] in D, EV. subst v'.
      apply Forall_app in S as [S1 S2]. inversion S2 as [|? ? SV _]; subst. cbn [snd] in SV.
      assert (T1 : well_typed h). { destruct T as [Ta Tb]. split; intros; [eapply Ta; apply in_or_app; left; eauto|eapply Tb; [apply in_or_app; left; eauto|apply in_or_app; left; eauto|auto]]. }
      destruct (IH l1 F1 S1 T1) as (w1 & R1 & L1 & V1 & O1). clear IH. rewrite py_sets_app, R1. cbn [PyStore_Model.py_sets].
      assert (IR : in_range v) by (destruct v; cbn in *; auto).
      assert (PN : p <> []). { destruct (denotes_qualified _ _ _ D) as (_ & N & _). auto. }
      assert (W : py_set w1 (PT loc ns) key v true false = (hset w1 loc (put_comps (hget w1 loc) p (text v)), PDone)).
      { rewrite (py_set_eq w1 loc ns key p v true false D IR). cbv zeta. rewrite (hasKey_eq w1 loc ns key p D).
        pose proof (V1 p PN) as Vp. destruct (value_at (hget w1 loc) p) as [d|] eqn:VA; cbn [negb orb andb]; auto.
        destruct (last_set h p) as [u|] eqn:LS.
        - injection Vp as ->. apply last_set_in in LS. assert (K : kind_of v = kind_of u) by (apply (proj1 T p); apply in_or_app; [right; left; auto|left; auto]).
          rewrite K, reads_text; auto. rewrite Forall_forall in S1. apply (S1 _ LS).
        - destruct (existsb (fun pv => pre p (fst pv)) h) eqn:EX; [|discriminate]. injection Vp as ->. apply existsb_exists in EX as ([q u] & I & PR). cbn [fst] in PR. apply pre_spec in PR.
          assert (K : kind_of v = KStr) by (apply (proj2 T p v q u); [apply in_or_app; right; left; auto|apply in_or_app; left; auto|auto]).
          rewrite K. reflexivity. }
      rewrite W. eexists. split; [reflexivity|]. rewrite hset_length. split; auto. rewrite hget_hset by auto. split.
      + intros q N. rewrite put_value_at, last_set_app. destruct (path_eq_dec q p) as [->|NE].
        * destruct (list_eq_dec bytes_eq_dec p p); [auto|congruence].
        * destruct (list_eq_dec bytes_eq_dec p q); [congruence|]. rewrite (V1 q N). rewrite existsb_app. cbn [existsb fst]. rewrite Bool.orb_false_r.
          destruct (last_set h q); auto. destruct (existsb _ h); auto.
      + intros l' N. rewrite hget_hset_other by auto. auto. }
  destruct X as (w' & R & L' & V & O). exists w'. split; auto. split; auto. intros ns' key q D.
  assert (QN : q <> []). { destruct (denotes_qualified _ _ _ D) as (_ & N & _). auto. }
  pose proof (V q QN) as Vq. destruct (last_set h q) as [v|] eqn:LS.
  - rewrite (py_get_eq _ w' loc ns' key q D), Vq, reads_text; auto. apply last_set_in in LS. rewrite Forall_forall in S. apply (S _ LS).
  - rewrite (py_get_eq _ w' loc ns' key q D), (hasKey_eq w' loc ns' key q D), Vq. split; intros H.
    + replace (existsb _ h) with true; auto. symmetry. apply existsb_exists. apply Exists_exists in H as (x & I & A). exists x. split; auto. apply pre_spec. auto.
    + replace (existsb _ h) with false; auto. symmetry. apply Bool.not_true_is_false. intros EX. apply H. apply existsb_exists in EX as (x & I & A). apply Exists_exists. exists x. split; auto. apply pre_spec. auto.
Qed.
End P.

(** Reading, from Python or C++, with or without a default, never changes a tree. *)
Theorem reading_changes_nothing : forall junk A (tr : bytes -> option A) V0 w s path def, fst (get junk tr V0 w s path def) = w.
Proof.
  intros junk A tr V0 w s. induction s as [loc ns|f|l IH|m p v IH|v IH] using store_ind'; intros path def.
  - cbn [get]. unfold getFromPt. destruct def; auto. destruct (getX tr (hget w loc) ns path); auto.
  - cbn [get]. destruct (f path); auto.
  - induction l as [|v l IHl]; [reflexivity|]. inversion IH as [|? ? I1 I2]; subst. destruct l as [|v' l]; [apply I1|].
    change (get junk tr V0 w (Layered (v :: v' :: l)) path def) with (if hasKey junk w v path then get junk tr V0 w v path None else get junk tr V0 w (Layered (v' :: l)) path def).
    destruct (hasKey junk w v path); auto.
  - cbn [get]. destruct (applyPrefix m p path); auto.
  - cbn [get]. specialize (IH path def). destruct (get junk tr V0 w v path def) as [w1 [h| |]]; cbn [fst] in *; auto. destruct (handle_get tr w1 h); auto.
Qed.

(** ** Where set is not an assignment *)
Definition root : bytes := view_root [].
(** After an int, a float cannot be stored under the same key, nor the other way round a bool ...: set reads the old value as one of the new type. *)
Theorem py_set_type_refuted : exists w1 w2,
  py_set true true 17 [pempty] (PT 0 root) (str "gain") (PyFloat (fdec 25 1)) true false = (w1, PDone) /\
  py_set true true 17 w1 (PT 0 root) (str "gain") (PyInt 3) true false = (w1, PRaised) /\
  py_set true true 17 [pempty] (PT 0 root) (str "on") (PyBool true) true false = (w2, PDone) /\
  py_set true true 17 w2 (PT 0 root) (str "on") (PyInt 5) true false = (w2, PRaised).
Proof.
  exists [Node [] [(str "gain", Node (str "2.5") [])]], [Node [] [(str "on", Node (str "true") [])]].
  split; [vm_compute; reflexivity|]. split; [vm_compute; reflexivity|]. split; vm_compute; reflexivity.
Qed.
(** A key that exists only because it is above another key takes strings only. *)
Theorem py_set_above_refuted : exists w,
  py_set true true 17 [pempty] (PT 0 root) (str "cam/fps") (PyInt 30) true false = (w, PDone) /\
  py_hasKey true w (PT 0 root) (str "cam") = true /\
  py_set true true 17 w (PT 0 root) (str "cam") (PyInt 1) true false = (w, PRaised).
Proof. exists [Node [] [(str "cam", Node [] [(str "fps", Node (str "30") [])])]]. split; [|split]; vm_compute; reflexivity. Qed.
(** Infinities and NaN are stored, and cannot be read; after that no float can be stored under the key without force_add. *)
Theorem py_set_nonfinite_refuted : exists w, py_set true true 17 [pempty] (PT 0 root) (str "max") (PyFloat (finf false)) true false = (w, PDone) /\
  py_get true KFloat w (PT 0 root) (str "max") = VThrow /\
  py_set true true 17 w (PT 0 root) (str "max") (PyFloat (fofZ 1)) true false = (w, PRaised).
Proof. exists [Node [] [(str "max", Node (str "inf") [])]]. split; [|split]; vm_compute; reflexivity. Qed.

(** Concrete cases *)
Definition history : list (list bytes * pyval) :=
  [([str "cam"; str "fps"], PyInt 30); ([str "cam"], PyStr (str "front")); ([str "cam"; str "fps"], PyInt (-25)); ([str "gain"], PyFloat (fdec 1 1)); ([str "on"], PyBool true)].
Example history_typed : well_typed history /\ Forall (fun pv => storable 17 (snd pv)) history.
Proof.
  split; [split|].
  - intros p v u [H|[H|[H|[H|[H|[]]]]]] [H'|[H'|[H'|[H'|[H'|[]]]]]]; injection H as <- <-; try discriminate H'; injection H' as <-; reflexivity.
  - intros p v q u [H|[H|[H|[H|[H|[]]]]]] [H'|[H'|[H'|[H'|[H'|[]]]]]] (r & N & A); injection H as <- <-; injection H' as <- <-; try reflexivity; exfalso;
      destruct r as [|k r]; try congruence; cbn in A; try discriminate A.
  - apply Forall_forall. intros x [<-|[<-|[<-|[<-|[<-|[]]]]]]; cbn [snd storable]; try exact I; try lia. split; [reflexivity|lia].
Qed.
Example history_runs : exists w, py_sets true true 17 [pempty] (PT 0 root)
    [(str "cam/fps", PyInt 30); (str "cam", PyStr (str "front")); (str "/cam/fps", PyInt (-25)); (str "gain", PyFloat (fdec 1 1)); (str "on", PyBool true)] = (w, PDone) /\
  py_get true KInt w (PT 0 root) (str "cam/fps/") = VOk (PyInt (-25)) /\ py_get true KStr w (PT 0 (view_root (str "cam"))) [] = VOk (PyStr (str "front")).
Proof. eexists. split; [vm_compute; reflexivity|]. split; vm_compute; reflexivity. Qed.
Print Assumptions py_set_exact.
Print Assumptions py_set_then_get.
Print Assumptions py_sets_dictionary.
Print Assumptions reading_changes_nothing.
