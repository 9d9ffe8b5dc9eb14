(** C145: the severity macros of sm_logging, as text: for every severity and variant, and every SMCONSOLE_MIN_SEVERITY, the checked-in
    macros_generated.hpp defines the macro, with the same parameters in both branches, as the right SM_LOG macro at the right level; the script that
    is to write this file writes another one. *)
From Verif Require Import MacroText_Model.
Open Scope bool_scope.

(** ** What the macros are meant to be *)
(** severity macro, name of the enumerator, number *)
Definition levels : list (string * string * Z) :=
  [("ALL", "All", 0); ("FINEST", "Finest", 1); ("VERBOSE", "Verbose", 2); ("FINER", "Finer", 3); ("TRACE", "Trace", 4); ("FINE", "Fine", 5);
   ("DEBUG", "Debug", 6); ("INFO", "Info", 7); ("WARN", "Warn", 8); ("ERROR", "Error", 9); ("FATAL", "Fatal", 10)]%string%Z.
Inductive when := Always | Cond | Once | Throttle.
(** a variant: with << (STREAM), the condition, with an own name (NAMED) *)
Record kind := mkK { stream : bool; cond : when; named : bool }.
Definition opt (b : bool) (s : string) : bytes := if b then str s else [].
Definition suffix (w : when) : bytes := match w with Always => [] | Cond => str "_COND" | Once => str "_ONCE" | Throttle => str "_THROTTLE" end.
Definition macro_name (caps : bytes) (k : kind) : bytes :=
  str "SM_" ++ caps ++ opt (stream k) "_STREAM" ++ suffix (cond k) ++ opt (named k) "_NAMED".
Definition front (w : when) : list bytes := match w with Cond => [str "cond"] | Throttle => [str "rate"] | _ => [] end.
Definition named_params (k : kind) : list bytes :=
  front (cond k) ++ (if named k then [str "name"] else []) ++ (if stream k then [str "args"] else []).
Definition SM_LOG (k : kind) : bytes := str "SM_LOG" ++ opt (stream k) "_STREAM" ++ suffix (cond k).
Definition level_tokens (enum : bytes) : list bytes := map str [":"; ":"; "sm"; ":"; ":"; "logging"; ":"; ":"; "levels"; ":"; ":"]%string ++ [enum].
(** the name of the stream: the package's name, or the package's name, a dot and the given name *)
Definition stream_name (default : string) (given : option (list bytes)) : list bytes :=
  match given with
  | None => [str default]
  | Some n => map str ["std"; ":"; ":"; "string"; "("; "SMCONSOLE_NAME_PREFIX"; ")"; "+"; """."""; "+"]%string ++ n
  end.
(** what a call stands for: SM_LOG...(condition, level, name, message) *)
Definition meaning (default : string) (enum : bytes) (k : kind) (c : list bytes) (n : list bytes) (message : list bytes) : list bytes :=
  SM_LOG k :: str "(" :: match cond k with Always | Once => [] | _ => c ++ [str ","] end
    ++ level_tokens enum ++ str "," :: stream_name default (if named k then Some n else None) ++ str "," :: message ++ [str ")"].
(** the arguments of a call, in order: condition or rate, name, message *)
Definition call_args (k : kind) (c n : list bytes) (message : list (list bytes)) : list (list bytes) :=
  match cond k with Always | Once => [] | _ => [c] end ++ (if named k then [n] else []) ++ message.
(** a piece of program text that is one argument of a macro: its parentheses match and it has no comma outside them *)
Inductive arg : list bytes -> Prop :=
| arg_nil : arg []
| arg_tok t l : t <> str "(" -> t <> str ")" -> t <> str "," -> arg l -> arg (t :: l)
| arg_par l r : inner l -> arg r -> arg (str "(" :: l ++ str ")" :: r)
with inner : list bytes -> Prop :=
| in_nil : inner []
| in_tok t l : t <> str "(" -> t <> str ")" -> inner l -> inner (t :: l)
| in_par l r : inner l -> inner r -> inner (str "(" :: l ++ str ")" :: r).
Scheme arg_ind2 := Induction for arg Sort Prop with inner_ind2 := Induction for inner Sort Prop.

Definition kinds : list kind := flat_map (fun s => flat_map (fun c => map (mkK s c) [false; true]) [Always; Cond; Once; Throttle]) [false; true].
Lemma in_kinds k : In k kinds.
Proof. destruct k as [[|] [| | |] [|]]; cbn; tauto. Qed.
(** the names in the #if lines stand for the severities of Levels.hpp *)
Definition severities (vals : bytes -> Z) : Prop := forall caps enum z, In (caps, enum, z) levels -> vals (str "SMCONSOLE_SEVERITY_" ++ str caps) = z.
Definition spec (default : string) (caps enum : bytes) (off : bool) (k : kind) : macro :=
  mkM (named_params k) (negb (stream k))
      (if off then [] else meaning default enum k (front (cond k)) [str "name"] [if stream k then str "args" else str "__VA_ARGS__"]).

(** ** Reading the file *)
Lemma fold_defs vals l : forall c d, forallb (fun b => b) c = true ->
  fold_left (step vals) (map (fun x => DDefine (fst x) (snd x)) l) (Some (mkP c d)) = Some (mkP c (rev l ++ d)).
Proof.
  induction l as [|[n m] l IH]; intros c d Hc; [reflexivity|]. cbn [map fold_left step fst snd]. unfold live. cbn [conds defs]. rewrite Hc.
  rewrite IH by auto. cbn [rev]. now rewrite <- app_assoc.
Qed.
Lemma fold_skip vals l : forall c d, forallb (fun b => b) c = false ->
  fold_left (step vals) (map (fun x => DDefine (fst x) (snd x)) l) (Some (mkP c d)) = Some (mkP c d).
Proof.
  induction l as [|[n m] l IH]; intros c d Hc; [reflexivity|]. cbn [map fold_left step fst snd]. unfold live. cbn [conds defs]. rewrite Hc. apply IH, Hc.
Qed.
Definition block (a b : bytes) (A B : list (bytes * macro)) : list dir :=
  DIf a b :: map (fun x => DDefine (fst x) (snd x)) A ++ DElse :: map (fun x => DDefine (fst x) (snd x)) B ++ [DEndif].
Lemma fold_block vals a b A B d :
  fold_left (step vals) (block a b A B) (Some (mkP [] d)) = Some (mkP [] (rev (if Z.gtb (vals a) (vals b) then A else B) ++ d)).
Proof.
  unfold block. cbn [fold_left step conds defs]. rewrite fold_left_app. destruct (Z.gtb (vals a) (vals b)) eqn:G.
  - rewrite fold_defs by reflexivity. cbn [fold_left step conds defs negb]. rewrite fold_left_app, fold_skip by reflexivity. reflexivity.
  - rewrite fold_skip by reflexivity. cbn [fold_left step conds defs negb]. rewrite fold_left_app, fold_defs by reflexivity. reflexivity.
Qed.
(** the order within a block *)
Definition file_kinds : list kind :=
  flat_map (fun c => flat_map (fun n => map (fun s => mkK s c n) [false; true]) [false; true]) [Always; Cond; Once; Throttle].
Definition MIN := str "SMCONSOLE_MIN_SEVERITY".
Definition SEV (caps : bytes) := str "SMCONSOLE_SEVERITY_" ++ caps.
Definition entries (default : string) (l : string * string) (off : bool) : list (bytes * macro) :=
  map (fun k => (macro_name (str (fst l)) k, spec default (str (fst l)) (str (snd l)) off k)) file_kinds.
Definition blocks (default : string) (ls : list (string * string)) : list dir :=
  flat_map (fun l => block MIN (SEV (str (fst l))) (entries default l true) (entries default l false) ++ [DText []]) ls.
Definition table (default : string) (vals : bytes -> Z) (ls : list (string * string)) (d : list (bytes * macro)) : list (bytes * macro) :=
  fold_left (fun d l => rev (entries default l (Z.gtb (vals MIN) (vals (SEV (str (fst l)))))) ++ d) ls d.
Lemma fold_blocks default vals ls : forall d,
  fold_left (step vals) (blocks default ls) (Some (mkP [] d)) = Some (mkP [] (table default vals ls d)).
Proof.
  induction ls as [|l ls IH]; intros d; [reflexivity|]. unfold blocks. cbn [flat_map]. rewrite !fold_left_app, fold_block. cbn [fold_left step].
  fold (blocks default ls). rewrite IH. unfold table. cbn [fold_left]. now destruct (Z.gtb _ _).
Qed.
(** lookups in the table *)
Lemma lookup_in l : NoDup (map fst l) -> forall n m, In (n, m) l -> lookup n l = Some m.
Proof.
  induction l as [|[k v] l IH]; intros ND n m H; [contradiction|]. cbn [map fst] in ND. apply NoDup_cons_iff in ND as [NI ND]. cbn [lookup].
  destruct H as [[= -> ->]|H]; [now rewrite bytes_eqb_refl|].
  destruct (bytes_eqb k n) eqn:E; [|auto]. apply bytes_eqb_eq in E as ->. exfalso. apply NI. apply in_map_iff. exists (n, m). auto.
Qed.
Lemma lookup_sound l n m : lookup n l = Some m -> In (n, m) l.
Proof.
  induction l as [|[k v] l IH]; cbn [lookup]; [discriminate|]. destruct (bytes_eqb k n) eqn:E; [|right; auto].
  apply bytes_eqb_eq in E as ->. intros [= ->]. left. reflexivity.
Qed.
Lemma names_fixed default vals ls : forall d d', map fst d = map fst d' ->
  map fst (table default vals ls d) = map fst (table default (fun _ => 0%Z) ls d').
Proof.
  induction ls as [|l ls IH]; intros d d' E; [exact E|]. cbn [table fold_left]. apply IH. rewrite !map_app, E, !map_rev. unfold entries. now rewrite !map_map.
Qed.
Lemma in_table default vals ls x : forall d,
  In x (table default vals ls d) <-> In x d \/ exists l, In l ls /\ In x (entries default l (Z.gtb (vals MIN) (vals (SEV (str (fst l)))))).
Proof.
  induction ls as [|l ls IH]; intros d; cbn [table fold_left].
  - split; [auto|]. now intros [H|(l & [] & _)].
  - unfold table in IH. rewrite IH, in_app_iff, <- in_rev. split.
    + intros [[H|H]|(l' & H & K)]; [right; exists l; cbn; auto|auto|right; exists l'; cbn; auto].
    + intros [H|(l' & [-> |H] & K)]; [auto|auto|right; eauto].
Qed.
Fixpoint nodupb (l : list bytes) : bool := match l with [] => true | x :: r => negb (existsb (bytes_eqb x) r) && nodupb r end.
Lemma nodupb_sound l : nodupb l = true -> NoDup l.
Proof.
  induction l as [|x l IH]; cbn [nodupb]; intros H; [constructor|]. apply andb_true_iff in H as [A B]. constructor; [|auto].
  intros I. apply negb_true_iff in A. assert (X : existsb (bytes_eqb x) l = true) by (apply existsb_exists; exists x; split; [auto|apply bytes_eqb_refl]).
  congruence.
Qed.
Definition names : list (string * string) := map fst levels.
Lemma file_kinds_all k : In k file_kinds.
Proof. destruct k as [[|] [| | |] [|]]; cbn; tauto. Qed.
(** the comment at the top is empty lines *)
Definition empties (l : list dir) : bool := forallb (fun d => match d with DText [] => true | _ => false end) l.
Lemma fold_empties vals l s : empties l = true -> fold_left (step vals) l (Some s) = Some s.
Proof. induction l as [|[| | | | [|]|] l IH]; cbn [empties forallb]; intros H; try discriminate H; [reflexivity|]. cbn [fold_left step]. apply IH, H. Qed.
Lemma header_dirs : exists pre, empties pre = true /\ directives header = pre ++ blocks "SMCONSOLE_NAME_PREFIX" names.
Proof. exists (firstn 4 (directives header)). split; vm_compute; reflexivity. Qed.

(** ** C145 *)
(** Whatever integer SMCONSOLE_MIN_SEVERITY is, the file defines SM_<SEVERITY>[_STREAM][_COND|_ONCE|_THROTTLE][_NAMED] for each of the eleven
    severities, with the same parameters always; the macro is empty exactly if the minimum exceeds the severity, and otherwise is the SM_LOG macro of
    the same variant at the level of that name; and the file defines nothing else. *)
Theorem header_macros vals : severities vals ->
  exists s, preprocess vals header = Some s /\
    (forall caps enum z k, In (caps, enum, z) levels ->
       lookup (macro_name (str caps) k) (defs s) = Some (spec "SMCONSOLE_NAME_PREFIX" (str caps) (str enum) (Z.ltb z (vals MIN)) k)) /\
    (forall n m, lookup n (defs s) = Some m -> exists caps enum z k, In (caps, enum, z) levels /\ n = macro_name (str caps) k).
Proof.
  intros SV. destruct header_dirs as (pre & EP & HD).
  exists (mkP [] (table "SMCONSOLE_NAME_PREFIX" vals names [])).
  assert (ND : NoDup (map fst (table "SMCONSOLE_NAME_PREFIX" vals names []))).
  { rewrite (names_fixed _ vals names [] [] eq_refl). apply nodupb_sound. vm_compute. reflexivity. }
  refine (conj _ (conj _ _)).
  - unfold preprocess. rewrite HD, fold_left_app, fold_empties, fold_blocks by exact EP. reflexivity.
  - intros caps enum z k I. cbn [defs]. apply lookup_in; [exact ND|]. apply in_table. right. exists (caps, enum).
    split; [apply in_map_iff; exists (caps, enum, z); auto|]. unfold entries. apply in_map_iff. exists k. cbn [fst snd].
    split; [|apply file_kinds_all]. unfold SEV. rewrite (SV _ _ _ I). now rewrite Z.gtb_ltb.
  - intros n m L. cbn [defs] in L. apply lookup_sound, in_table in L as [[]|(l & IL & IE)].
    apply in_map_iff in IL as ([[caps enum] z] & E & I). subst l. unfold entries in IE. apply in_map_iff in IE as (k & [= <- <-] & _).
    exists caps, enum, z, k. auto.
Qed.
(** The severities of Levels.hpp are the numbers of the enumerators. *)
Theorem severities_of_levels : forall i, i < 11 ->
  exists caps enum, nth_error levels i = Some (caps, enum, Z.of_nat i) /\ nth_error enumerators i = Some enum /\
    severity_of severity_lines (str "SMCONSOLE_SEVERITY_" ++ str caps) = Some (Z.of_nat i).
Proof. intros i H. do 11 (destruct i as [|i]; [eexists; eexists; repeat split; vm_compute; reflexivity|]). lia. Qed.

(** ** Calls *)
Lemma neqb a b : a <> b -> bytes_eqb a b = false.
Proof. intros H. destruct (bytes_eqb a b) eqn:E; [|reflexivity]. apply bytes_eqb_eq in E. contradiction. Qed.
Lemma collect_inner l : inner l -> forall d cur acc r, collect (S d) cur acc (l ++ r) = collect (S d) (rev l ++ cur) acc r.
Proof.
  induction 1 as [|t l A B H IH|l r1 H IH H2 IH2]; intros d cur acc r; [reflexivity| |].
  - cbn [app collect]. rewrite (neqb _ _ A), (neqb _ _ B). cbn [Nat.eqb]. rewrite andb_false_r, IH. cbn [rev]. now rewrite <- app_assoc.
  - cbn [app collect]. rewrite bytes_eqb_refl, <- app_assoc, IH. cbn [app collect].
    change (bytes_eqb (str ")") (str "(")) with false. cbn match. rewrite bytes_eqb_refl, IH2. cbn [rev]. rewrite rev_app_distr. cbn [rev].
    now rewrite <- !app_assoc.
Qed.
Lemma collect_arg l : arg l -> forall cur acc r, collect 0 cur acc (l ++ r) = collect 0 (rev l ++ cur) acc r.
Proof.
  induction 1 as [|t l A B C H IH|l r1 H H2 IH2]; intros cur acc r; [reflexivity| |].
  - cbn [app collect]. rewrite (neqb _ _ A), (neqb _ _ B), (neqb _ _ C). cbn [andb]. rewrite IH. cbn [rev]. now rewrite <- app_assoc.
  - cbn [app collect]. rewrite bytes_eqb_refl, <- app_assoc, collect_inner by exact H. cbn [app collect].
    change (bytes_eqb (str ")") (str "(")) with false. cbn match. rewrite bytes_eqb_refl, IH2. cbn [rev]. rewrite rev_app_distr. cbn [rev].
    now rewrite <- !app_assoc.
Qed.
Lemma collect_args l rest : l <> [] -> Forall arg l -> forall acc,
  collect 0 [] acc (with_commas l ++ str ")" :: rest) = Some (rev acc ++ l, rest).
Proof.
  induction l as [|a l IH]; intros NE F acc; [contradiction|]. apply Forall_cons_iff in F as [A F].
  destruct l as [|b l].
  - cbn [with_commas]. rewrite collect_arg by exact A. cbn [collect]. change (bytes_eqb (str ")") (str "(")) with false. cbn match.
    rewrite bytes_eqb_refl, app_nil_r, rev_involutive. reflexivity.
  - change (with_commas (a :: b :: l)) with (a ++ str "," :: with_commas (b :: l)). rewrite <- app_assoc, collect_arg by exact A. cbn [app collect].
    change (bytes_eqb (str ",") (str "(")) with false. change (bytes_eqb (str ",") (str ")")) with false. cbn match. rewrite bytes_eqb_refl.
    cbn [andb Nat.eqb]. rewrite IH by (auto; discriminate). rewrite app_nil_r, rev_involutive. cbn [rev]. now rewrite <- app_assoc.
Qed.
Lemma replace_spec default caps enum off k c n message : message <> [] -> (stream k = true -> exists m, message = [m]) -> ~ In enum (named_params k) ->
  enum <> str "__VA_ARGS__" -> default = "SMCONSOLE_NAME_PREFIX"%string \/ default = "SMCONSOLE_DEFAULT_NAME"%string ->
  replace (spec default caps enum off k) (call_args k c n message) = Some (if off then [] else meaning default enum k c n (with_commas message)).
Proof.
  intros NE ST NI NV DF. unfold replace.
  assert (BE : bind (named_params k) (call_args k c n message) enum = None).
  { clear -NI. generalize dependent (call_args k c n message). induction (named_params k) as [|p ps IH]; intros l; cbn [bind]; [reflexivity|].
    destruct l; [reflexivity|]. rewrite neqb by (intros ->; apply NI; left; reflexivity). apply IH. intros H; apply NI; right; exact H. }
  destruct k as [st cd nm]. unfold spec. cbn [stream cond named params variadic body] in *.
  destruct st.
  - destruct (ST eq_refl) as (m & ->). clear ST NE.
    destruct cd, nm, off, DF as [-> | ->]; cbn [named_params front call_args stream cond named app List.length Nat.eqb negb] in BE |- *;
      try reflexivity; unfold meaning; cbn [cond named stream SM_LOG level_tokens stream_name map app flat_map]; rewrite BE;
      cbn -[str bytes_eqb app]; unfold SM_LOG; cbn; rewrite ?app_nil_r, <- ?app_assoc; reflexivity.
  - destruct message as [|m ms]; [contradiction|]. clear ST NE.
    destruct cd, nm, off, DF as [-> | ->]; cbn [named_params front call_args stream cond named app List.length Nat.leb negb] in BE |- *;
      try reflexivity; unfold meaning; cbn [cond named stream SM_LOG level_tokens stream_name map app flat_map]; rewrite BE, (neqb _ _ NV);
      cbn -[str bytes_eqb app with_commas]; unfold SM_LOG; cbn -[with_commas]; rewrite ?app_nil_r, <- ?app_assoc; reflexivity.
Qed.
(** Every call of a severity macro, with any arguments that are arguments for the preprocessor (one message for the STREAM variants): it is removed
    if the minimum exceeds the severity, and otherwise becomes the call of the SM_LOG macro with the condition or rate, the level, the name of the
    stream and the message, each where it belongs and whatever tokens they consist of. *)
Theorem header_calls vals s caps enum z k c n message rest :
  severities vals -> preprocess vals header = Some s -> In (caps, enum, z) levels ->
  Forall arg (call_args k c n message) -> message <> [] -> (stream k = true -> exists m, message = [m]) ->
  expand_call (defs s) (macro_name (str caps) k :: str "(" :: with_commas (call_args k c n message) ++ str ")" :: rest) =
  Some ((if Z.ltb z (vals MIN) then [] else meaning "SMCONSOLE_NAME_PREFIX" (str enum) k c n (with_commas message)) ++ rest).
Proof.
  intros SV PP I F NE ST. destruct (header_macros vals SV) as (s' & PP' & L & _). rewrite PP in PP'. injection PP' as <-.
  unfold expand_call. rewrite (L caps enum z k I), bytes_eqb_refl, collect_args; [|unfold call_args; destruct message; [contradiction|destruct (cond k), (named k); discriminate]|exact F].
  cbn [rev app]. rewrite replace_spec; auto.
  - clear -I. unfold named_params. intros H. assert (X : existsb (bytes_eqb (str enum)) [str "cond"; str "rate"; str "name"; str "args"] = false).
    { revert I. cbn [levels In]. intros I. repeat destruct I as [[= <- <- <-]|I]; try reflexivity. contradiction. }
    assert (Y : existsb (bytes_eqb (str enum)) [str "cond"; str "rate"; str "name"; str "args"] = true); [|congruence].
    apply existsb_exists. exists (str enum). split; [|apply bytes_eqb_refl]. destruct (cond k), (named k), (stream k); cbn [front app In] in H |- *; intuition.
  - clear -I. revert I. cbn [levels In]. intros I. repeat destruct I as [[= <- <- <-]|I]; try discriminate. contradiction.
Qed.
(** A STREAM macro takes one message: a comma outside parentheses (a template argument list, say) is an error at compile time, at every severity. *)
Theorem header_stream_commas vals s caps enum z k c n m1 m2 ms rest :
  severities vals -> preprocess vals header = Some s -> In (caps, enum, z) levels -> stream k = true -> Forall arg (call_args k c n (m1 :: m2 :: ms)) ->
  expand_call (defs s) (macro_name (str caps) k :: str "(" :: with_commas (call_args k c n (m1 :: m2 :: ms)) ++ str ")" :: rest) = None.
Proof.
  intros SV PP I ST F. destruct (header_macros vals SV) as (s' & PP' & L & _). rewrite PP in PP'. injection PP' as <-.
  unfold expand_call. rewrite (L caps enum z k I), bytes_eqb_refl, collect_args; [|unfold call_args; destruct (cond k), (named k); discriminate|exact F].
  cbn [rev app]. unfold replace, spec. cbn [params variadic]. rewrite ST. cbn [negb]. unfold named_params, call_args. rewrite ST.
  destruct (cond k), (named k); reflexivity.
Qed.

(** ** The script *)
Definition script_names : list (string * string) := generated_levels.
Lemma generated_dirs : exists t pre, generated = Some t /\ empties pre = true /\ directives t = pre ++ blocks "SMCONSOLE_DEFAULT_NAME" script_names.
Proof.
  destruct generated as [t|] eqn:G; [|exfalso; assert (X : option_map (fun _ => tt) generated = Some tt) by (vm_compute; reflexivity); rewrite G in X; discriminate X]. exists t, [DText []; DText []; DText []; DText []]. split; [reflexivity|]. split; [reflexivity|].
  assert (Y : option_map directives generated = Some ([DText []; DText []; DText []; DText []] ++ blocks "SMCONSOLE_DEFAULT_NAME" script_names)) by (vm_compute; reflexivity).
  rewrite G in Y. cbn [option_map] in Y. injection Y as Y. exact Y.
Qed.
(** What the script writes is not the file that is checked in; run, it takes away the macros of six severities: ALL, FINEST, VERBOSE, FINER, TRACE and
    FINE, in every variant, so that a call of one is left for the compiler as it stands. *)
Theorem regenerated_refuted vals t : generated = Some t ->
  t <> header /\
  exists s, preprocess vals t = Some s /\
    forall caps k, In caps ["ALL"; "FINEST"; "VERBOSE"; "FINER"; "TRACE"; "FINE"]%string ->
      lookup (macro_name (str caps) k) (defs s) = None /\
      (forall text, expand_call (defs s) (macro_name (str caps) k :: text) = Some (macro_name (str caps) k :: text)).
Proof.
  intros G. destruct generated_dirs as (t' & pre & G' & EP & HD). rewrite G in G'. injection G' as <-. split.
  - intros ->. assert (X : option_map (fun t => bytes_eqb t header) generated = Some false) by (vm_compute; reflexivity).
    rewrite G in X. cbn [option_map] in X. rewrite bytes_eqb_refl in X. discriminate X.
  - exists (mkP [] (table "SMCONSOLE_DEFAULT_NAME" vals script_names [])). split.
    { unfold preprocess. rewrite HD, fold_left_app, fold_empties, fold_blocks by exact EP. reflexivity. }
    intros caps k I. cbn [defs]. assert (L : lookup (macro_name (str caps) k) (table "SMCONSOLE_DEFAULT_NAME" vals script_names []) = None).
    { destruct (lookup _ _) as [m|] eqn:E; [|reflexivity]. exfalso. apply lookup_sound in E.
      apply (in_map fst) in E. cbn [fst] in E. rewrite (names_fixed _ vals script_names [] [] eq_refl) in E.
      assert (X : existsb (bytes_eqb (macro_name (str caps) k)) (map fst (table "SMCONSOLE_DEFAULT_NAME" (fun _ => 0%Z) script_names [])) = true).
      { apply existsb_exists. eexists. split; [exact E|apply bytes_eqb_refl]. }
      assert (Y : forallb (fun c => forallb (fun k => negb (existsb (bytes_eqb (macro_name (str c) k)) (map fst (table "SMCONSOLE_DEFAULT_NAME" (fun _ => 0%Z) script_names [])))) kinds)
                    ["ALL"; "FINEST"; "VERBOSE"; "FINER"; "TRACE"; "FINE"]%string = true) by (vm_compute; reflexivity).
      rewrite forallb_forall in Y. specialize (Y _ I). rewrite forallb_forall in Y. specialize (Y _ (in_kinds k)). rewrite X in Y. discriminate Y. }
    split; [exact L|]. intros [|p r]; [reflexivity|]. cbn [expand_call]. rewrite L. reflexivity.
Qed.
(** The other five severities it writes alike, but for SMCONSOLE_DEFAULT_NAME instead of SMCONSOLE_NAME_PREFIX, which stands for the same (macros.h:110). *)
Theorem regenerated_partial vals t : severities vals -> generated = Some t ->
  exists s, preprocess vals t = Some s /\
    forall caps enum z k, In (caps, enum, z) levels -> (6 <= z)%Z ->
      lookup (macro_name (str caps) k) (defs s) = Some (spec "SMCONSOLE_DEFAULT_NAME" (str caps) (str enum) (Z.ltb z (vals MIN)) k).
Proof.
  intros SV G. destruct generated_dirs as (t' & pre & G' & EP & HD). rewrite G in G'. injection G' as <-.
  exists (mkP [] (table "SMCONSOLE_DEFAULT_NAME" vals script_names [])). split.
  { unfold preprocess. rewrite HD, fold_left_app, fold_empties, fold_blocks by exact EP. reflexivity. }
  intros caps enum z k I Z6. cbn [defs]. apply lookup_in.
  { rewrite (names_fixed _ vals script_names [] [] eq_refl). apply nodupb_sound. vm_compute. reflexivity. }
  apply in_table. right. exists (caps, enum). split.
  - revert I Z6. cbn [levels In]. intros I Z6. repeat destruct I as [[= <- <- <-]|I]; try lia; try contradiction; cbn; tauto.
  - unfold entries. apply in_map_iff. exists k. cbn [fst snd]. split; [|apply file_kinds_all]. unfold SEV. rewrite (SV _ _ _ I). now rewrite Z.gtb_ltb.
Qed.
(** the script with the eleven severities and SMCONSOLE_NAME_PREFIX would have written the file, byte for byte *)
Fixpoint swap_name (fuel : nat) (l : bytes) : bytes :=
  match fuel, l with
  | O, _ | _, [] => l
  | S f, c :: r => if bytes_eqb (firstn 22 l) (str "SMCONSOLE_DEFAULT_NAME") then str "SMCONSOLE_NAME_PREFIX" ++ swap_name f (skipn 22 l) else c :: swap_name f r
  end.
Theorem header_from_add_macro :
  exists bs, map (fun l => add_macro (str (fst l)) (str (snd l))) names = map Some bs /\
    header = join_lines preamble ++ flat_map (fun b => swap_name (List.length b) b) bs.
Proof.
  set (f := fun l : string * string => match add_macro (str (fst l)) (str (snd l)) with Some b => b | None => [] end).
  exists (map f names). split.
  - assert (X : forallb (fun l => match add_macro (str (fst l)) (str (snd l)) with Some _ => true | None => false end) names = true) by (vm_compute; reflexivity).
    rewrite forallb_forall in X. rewrite map_map. apply map_ext_in. intros l I. specialize (X _ I). unfold f. now destruct (add_macro _ _).
  - apply bytes_eqb_eq. vm_compute. reflexivity.
Qed.

(** ** Examples *)
Definition vals_min (min : Z) (n : bytes) : Z :=
  if bytes_eqb n MIN then min else match severity_of severity_lines n with Some z => z | None => 0%Z end.
Lemma vals_min_severities min : severities (vals_min min).
Proof. intros caps enum z I. revert I. cbn [levels In]. intros I. repeat destruct I as [[= <- <- <-]|I]; try (vm_compute; reflexivity). contradiction. Qed.
Definition source (s : string) : list bytes := map txt (tokens (str s)).
(** SM_WARN_COND_NAMED(f(a, b) > 1, "net", "%d", x); with minimum INFO, and with minimum ERROR *)
Example warn_call :
  option_map (fun s => expand_call (defs s) (source "SM_WARN_COND_NAMED(f(a, b) > 1, ""net"", ""%d"", x);")) (preprocess (vals_min 7) header) =
  Some (Some (source "SM_LOG_COND(f(a, b) > 1, ::sm::logging::levels::Warn, std::string(SMCONSOLE_NAME_PREFIX) + ""."" + ""net"", ""%d"", x);")) /\
  option_map (fun s => expand_call (defs s) (source "SM_WARN_COND_NAMED(f(a, b) > 1, ""net"", ""%d"", x);")) (preprocess (vals_min 9) header) = Some (Some (source ";")).
Proof. split; vm_compute; reflexivity. Qed.
Example comma_call :
  option_map (fun s => expand_call (defs s) (source "SM_INFO_STREAM(std::pair<int, int>(1, 2).first);")) (preprocess (vals_min 0) header) = Some None.
Proof. vm_compute. reflexivity. Qed.
