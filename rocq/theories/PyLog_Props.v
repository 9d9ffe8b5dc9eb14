(** C115: logging from Python. *)
From Verif Require Import Logging_Model Logging_Spec Logging_Proofs Logging_Filter_Props PyLog_Model.
From Verif Require Import Strings_Model PTree_Model Bytes.
Open Scope nat_scope.

(** ** Specification *)
(** A message at level l for the stream called name passes after a history of calls: *)
Definition passes (h : list op) (name : bytes) (l : level) : Prop :=
  level_after h <= l /\ stream_on h (if bytes_eqb name (str "sm") then str "sm" else if bytes_eqb (firstn 3 name) (str "sm.") then name else str "sm." ++ name) = true.
(** the event of a message logged by the frame f; nothing in it contains a NUL *)
Definition no_nul (s : bytes) : Prop := ~ In 0%N s.
Definition clean (f : pyframe) (name msg : bytes) : Prop := no_nul (ffile f) /\ no_nul (ffunction f) /\ no_nul name /\ no_nul msg.
Definition event_of (f : pyframe) (name : bytes) (l : level) (msg time thread : bytes) : event := mkE name l (ffile f) (fline f) (ffunction f) msg time thread.
(** the names of the convenience functions for the levels *)
Definition level_word (l : level) : bytes :=
  match l with 1 => str "Finest" | 2 => str "Verbose" | 3 => str "Finer" | 4 => str "Trace" | 5 => str "Fine" | 6 => str "Debug" | 7 => str "Info" | 8 => str "Warn" | 9 => str "Error" | _ => str "Fatal" end.
Definition fn (l : level) : bytes := str "log" ++ level_word l.
Definition fnNamed (l : level) : bytes := str "log" ++ level_word l ++ str "Named".

(** ** Proofs *)
Lemma c_str_clean s : no_nul s -> c_str s = s.
Proof.
  unfold no_nul. induction s as [|c s IH]; auto. intros H. cbn. destruct (N.eqb_spec c 0) as [->|]; [exfalso; apply H; left; auto|]. f_equal. apply IH. intros X. apply H. right. auto.
Qed.
Lemma prefix_alt name : addDefaultPrefixIfMissing name = (if bytes_eqb name (str "sm") then str "sm" else if bytes_eqb (firstn 3 name) (str "sm.") then name else str "sm." ++ name).
Proof.
  unfold addDefaultPrefixIfMissing. destruct (bytes_eqb name (str "sm")) eqn:E.
  - apply bytes_eqb_eq in E. subst. reflexivity.
  - destruct (bytes_eqb (firstn 3 name) (str "sm.")); auto.
Qed.
Section P.
Variables time thread : bytes.
Lemma raw_eq h name l f msg : clean f name msg -> level_after h <= l ->
  (passes h name l -> rawLogNamed time thread (run g0 h) name (PLevel l) f msg = Delivered (event_of f name l msg time thread)) /\
  (~ passes h name l -> rawLogNamed time thread (run g0 h) name (PLevel l) f msg = Silent).
Proof.
  intros (C1 & C2 & C3 & C4) L. unfold rawLogNamed. rewrite (ahS _ _ (proj1 (history h))), prefix_alt. unfold passes, event_of. rewrite !c_str_clean by auto.
  destruct (stream_on h _); cbn [negb]; split; auto; intros H; [exfalso; apply H; auto|destruct H; discriminate].
Qed.
Lemma level_test h l : (Z.of_nat l <? Z.of_nat (glevel (run g0 h)))%Z = negb (level_after h <=? l).
Proof. rewrite (ahL _ _ (proj1 (history h))). destruct (Nat.leb_spec (level_after h) l); [apply Z.ltb_ge; lia|apply Z.ltb_lt; lia]. Qed.

(** logNamed: after any history, the message goes to the logger exactly if its level is at least the logging level and its stream is enabled, with the
    level, name and text it was given and the position of the frame asked for. *)
Theorem py_logNamed_filter h stack name l msg depth f : nth_error stack depth = Some f -> clean f name msg ->
  (passes h name l -> py_logNamed time thread (run g0 h) stack name (PLevel l) msg depth = Delivered (event_of f name l msg time thread)) /\
  (~ passes h name l -> py_logNamed time thread (run g0 h) stack name (PLevel l) msg depth = Silent).
Proof.
  intros N C. unfold py_logNamed. cbn [arg_value]. rewrite level_test, N. destruct (Nat.leb_spec (level_after h) l) as [L|L]; cbn [negb].
  - apply raw_eq; auto.
  - split; auto. intros [X _]. lia.
Qed.
Theorem py_log_filter h stack l msg depth f : nth_error stack depth = Some f -> clean f [] msg ->
  (passes h (str "sm") l -> py_log time thread (run g0 h) stack (PLevel l) msg depth = Delivered (event_of f (str "sm") l msg time thread)) /\
  (~ passes h (str "sm") l -> py_log time thread (run g0 h) stack (PLevel l) msg depth = Silent).
Proof.
  intros N (C1 & C2 & C3 & C4). apply (py_logNamed_filter h stack (str "sm") l msg depth f N). split; auto. split; auto. split; auto. intros H. vm_compute in H. intuition discriminate.
Qed.
(** The convenience functions, except logVerbose, log at the level in their name and report the position of their caller. *)
Theorem convenience_partial h own f callers l msg : 1 <= l <= 10 -> l <> 2 -> clean f [] msg ->
  (passes h (str "sm") l -> call_log time thread (run g0 h) own (f :: callers) (fn l) msg = Delivered (event_of f (str "sm") l msg time thread)) /\
  (~ passes h (str "sm") l -> call_log time thread (run g0 h) own (f :: callers) (fn l) msg = Silent).
Proof.
  intros L N C. assert (E : call_log time thread (run g0 h) own (f :: callers) (fn l) msg = py_log time thread (run g0 h) (snd own :: fst own :: f :: callers) (PLevel l) msg 2).
  { destruct l as [|[|[|[|[|[|[|[|[|[|[|l]]]]]]]]]]]; try lia; reflexivity. }
  rewrite E. apply (py_log_filter h (snd own :: fst own :: f :: callers)); auto.
Qed.
Theorem convenience_named h own f callers l name msg : 1 <= l <= 10 -> clean f name msg ->
  (passes h name l -> call_logNamed time thread (run g0 h) own (f :: callers) (fnNamed l) name msg = Delivered (event_of f name l msg time thread)) /\
  (~ passes h name l -> call_logNamed time thread (run g0 h) own (f :: callers) (fnNamed l) name msg = Silent).
Proof.
  intros L C. assert (E : call_logNamed time thread (run g0 h) own (f :: callers) (fnNamed l) name msg = py_logNamed time thread (run g0 h) (snd own :: fst own :: f :: callers) name (PLevel l) msg 2).
  { destruct l as [|[|[|[|[|[|[|[|[|[|[|l]]]]]]]]]]]; try lia; reflexivity. }
  rewrite E. apply (py_logNamed_filter h (snd own :: fst own :: f :: callers)); auto.
Qed.
(** logVerbose never logs: it raises, whatever the logging level. *)
Theorem logVerbose_refuted : forall g own callers msg, call_log time thread g own callers (fn 2) msg = Raised.
Proof. reflexivity. Qed.
(** Python and C++ agree: a C++ statement for the stream of the same name emits exactly if the Python call delivers (SM_..._NAMED(name, ...) logs to
    the stream sm.name; the plain macros to sm). *)
Theorem python_agrees_with_cpp h id l f callers own name msg : 1 <= l <= 10 -> clean f name msg ->
  firstn 3 name <> str "sm." -> name <> str "sm" -> named h id (str "sm." ++ name) ->
  (answer h (Log id (str "sm." ++ name) l true) = Some true <-> exists e, call_logNamed time thread (run g0 h) own (f :: callers) (fnNamed l) name msg = Delivered e).
Proof.
  intros L C N1 N2 NM. rewrite (log_filter_up_to_date h id _ l true NM). destruct (convenience_named h own f callers l name msg L C) as [D S].
  assert (P : passes h name l <-> wanted h (str "sm." ++ name) l true = true).
  { unfold passes, wanted. cbn [andb]. replace (bytes_eqb name (str "sm")) with false by (symmetry; apply Bool.not_true_is_false; intros E; apply bytes_eqb_eq in E; auto).
    replace (bytes_eqb (firstn 3 name) (str "sm.")) with false by (symmetry; apply Bool.not_true_is_false; intros E; apply bytes_eqb_eq in E; auto).
    change (match str "sm." ++ name with [] => true | _ :: _ => stream_on h (str "sm." ++ name) end) with (stream_on h (str "sm." ++ name)).
    rewrite andb_true_iff, Nat.leb_le. tauto. }
  split.
  - intros E. injection E as E. eexists. apply D, P. auto.
  - intros (e & E). f_equal. destruct (wanted h (str "sm." ++ name) l true) eqn:W; auto. rewrite S in E; [discriminate|]. intros X. apply P in X. discriminate.
Qed.
(** Calls never change what is enabled: see rawLogNamed, which returns no state.  A level given as a plain int is silently accepted as long as the
    message is filtered, and raises as soon as it would be logged. *)
Theorem py_log_int_refuted stack msg depth f : nth_error stack depth = Some f ->
  py_log time thread g0 stack (PInt 3) msg depth = Silent /\ py_log time thread (run g0 [SetLevel 3]) stack (PInt 3) msg depth = Raised.
Proof. intros N. unfold py_log, rawLog. rewrite N. split; reflexivity. Qed.
(** A message is cut at its first NUL. *)
Theorem py_log_nul_refuted : exists msg, forall f callers own, clean f [] [] ->
  call_log time thread g0 own (f :: callers) (str "logInfo") msg = Delivered (event_of f (str "sm") 7 (str "a") time thread) /\ msg <> str "a".
Proof.
  exists (str "a" ++ 0%N :: str "b"). intros f callers own (C1 & C2 & _). split; [|discriminate]. unfold event_of. rewrite <- (c_str_clean (ffile f)), <- (c_str_clean (ffunction f)) by auto. reflexivity.
Qed.
End P.

(** Concrete cases *)
Example ex_pylog : let user := mkF (str "run.py") 12 (str "main") in
  call_logNamed (str "1.0") (str "0") (run g0 [SetLevel 3; Enable (str "vision")]) (user, user) [user] (str "logTraceNamed") (str "vision") (str "hi")
    = Delivered (mkE (str "vision") 4 (str "run.py") 12 (str "main") (str "hi") (str "1.0") (str "0")) /\
  passes [SetLevel 3; Enable (str "vision")] (str "vision") 4 /\ ~ passes [SetLevel 3] (str "vision") 4 /\ ~ passes [Enable (str "vision")] (str "vision") 4 /\ clean user (str "vision") (str "hi").
Proof.
  cbv zeta. split; [reflexivity|]. split; [split; [vm_compute; lia|reflexivity]|]. split; [intros [_ X]; discriminate X|]. split; [intros [X _]; vm_compute in X; lia|].
  unfold clean, no_nul. cbn [ffile ffunction]. split; [|split; [|split]]; vm_compute; intuition discriminate.
Qed.
Print Assumptions python_agrees_with_cpp.
Print Assumptions convenience_partial.
