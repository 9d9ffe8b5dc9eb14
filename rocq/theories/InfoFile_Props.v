(** C120: property trees survive an INFO file. *)
From Verif Require Import Bytes Strings_Model PTree_Model PTree_Update InfoFile_Model.
Open Scope nat_scope.

(** ** Specification *)
(** [P k c] for every child c with key k anywhere below the root *)
Inductive everywhere (P : bytes -> ptree -> Prop) : ptree -> Prop :=
| everywhere_node : forall d ks, (forall k c, In (k, c) ks -> P k c /\ everywhere P c) -> everywhere P (Node d ks).
Inductive somewhere (P : bytes -> ptree -> Prop) : ptree -> Prop :=
| somewhere_here : forall d ks k c, In (k, c) ks -> P k c -> somewhere P (Node d ks)
| somewhere_below : forall d ks k c, In (k, c) ks -> somewhere P c -> somewhere P (Node d ks).
(** A key beginning with '#'. *)
Definition hash_key (k : bytes) : Prop := exists r, k = 35%N :: r.
(** A text that needs no quotes: not empty, no blank, tab, brace, semicolon or double quote. *)
Definition unquoted (s : bytes) : Prop := s <> [] /\ forall c, In c s -> ~ In c [32; 9; 123; 125; 59; 34]%N.
(** A character written with a backslash. *)
Definition backslashed (c : byte) : Prop := In c [0; 7; 8; 10; 11; 12; 13; 34; 92]%N.
(** A quoted key followed by an unquoted value that begins with a backslash in the file. *)
Definition clash (k : bytes) (c : ptree) : Prop :=
  ~ unquoted k /\ unquoted (pdata c) /\ exists b r, pdata c = b :: r /\ backslashed b.

(** ** Escapes *)
Lemma esc_cases c : (exists x, esc_char c = [92%N; x] /\ escape_char x = Some c /\ backslashed c /\ In x [48; 97; 98; 102; 110; 114; 118; 34; 92]%N)
  \/ (esc_char c = [c] /\ ~ backslashed c).
Proof.
  unfold backslashed.
  destruct (N.eq_dec c 0); [subst; left; exists 48%N; cbn; intuition|].
  destruct (N.eq_dec c 7); [subst; left; exists 97%N; cbn; intuition|].
  destruct (N.eq_dec c 8); [subst; left; exists 98%N; cbn; intuition|].
  destruct (N.eq_dec c 12); [subst; left; exists 102%N; cbn; intuition|].
  destruct (N.eq_dec c 10); [subst; left; exists 110%N; cbn; intuition|].
  destruct (N.eq_dec c 13); [subst; left; exists 114%N; cbn; intuition|].
  destruct (N.eq_dec c 11); [subst; left; exists 118%N; cbn; intuition|].
  destruct (N.eq_dec c 34); [subst; left; exists 34%N; cbn; intuition|].
  destruct (N.eq_dec c 92); [subst; left; exists 92%N; cbn; intuition|].
  right. split; [|cbn; intuition].
  unfold esc_char. destruct c as [|p]; [congruence|]. repeat (destruct p as [p|p|]; try reflexivity; try congruence).
Qed.
Lemma expand_create s r : expand_escapes (create_escapes s ++ r) = option_map (app s) (expand_escapes r).
Proof.
  induction s as [|c s IH]; [cbn; now destruct (expand_escapes r)|]. cbn [create_escapes flat_map]. fold (create_escapes s). rewrite <- app_assoc.
  destruct (esc_cases c) as [(x & E & X & _)|[E NB]]; rewrite E; cbn [app expand_escapes].
  - cbn. rewrite X, IH. now destruct (expand_escapes r).
  - assert (F : N.eqb c 92 = false) by (apply N.eqb_neq; intros ->; apply NB; cbn; tauto). rewrite F, IH. now destruct (expand_escapes r).
Qed.
Lemma expand_create' s : expand_escapes (create_escapes s) = Some s.
Proof. rewrite <- (app_nil_r (create_escapes s)), expand_create. cbn. now rewrite app_nil_r. Qed.
Lemma in_esc s x : In x (create_escapes s) -> (In x s /\ ~ backslashed x) \/ (In x [92; 48; 97; 98; 102; 110; 114; 118]%N) \/ (x = 34%N /\ In 34%N s).
Proof.
  unfold create_escapes. rewrite in_flat_map. intros (c & I & H). destruct (esc_cases c) as [(y & E & X & B & Y)|[E NB]]; rewrite E in H.
  - destruct H as [<-|[<-|[]]]; [right; left; cbn; tauto|]. cbn in Y. decompose [or] Y; subst; try (right; left; cbn; tauto); try contradiction.
    right. right. split; auto. cbn in X. congruence.
  - destruct H as [<-|[]]. left. auto.
Qed.
Lemma esc_quote s : In 34%N s -> In 34%N (create_escapes s).
Proof. intros I. unfold create_escapes. apply in_flat_map. exists 34%N. split; auto. cbn. auto. Qed.
Lemma esc_keep s x : In x s -> ~ backslashed x -> In x (create_escapes s).
Proof.
  intros I NB. unfold create_escapes. apply in_flat_map. exists x. split; auto. destruct (esc_cases x) as [(y & _ & _ & B & _)|[E _]]; [contradiction|]. rewrite E. now left.
Qed.
Lemma esc_nil s : create_escapes s = [] -> s = [].
Proof. destruct s as [|c s]; auto. cbn. destruct (esc_cases c) as [(y & E & _)|[E _]]; rewrite E; discriminate. Qed.
Lemma is_simple_spec s : is_simple (create_escapes s) = true <-> unquoted s.
Proof.
  unfold is_simple, unquoted. destruct (create_escapes s) as [|c0 r0] eqn:E.
  - apply esc_nil in E. subst. split; [discriminate | intros [H _]; congruence].
  - rewrite <- E. rewrite Bool.negb_true_iff. assert (NE : s <> []) by (intros ->; discriminate E). split.
    + intros H. split; auto. intros c I J. assert (F : existsb (fun c => existsb (N.eqb c) special_chars) (create_escapes s) = true); [|congruence].
      apply existsb_exists. exists c. destruct (N.eq_dec c 34) as [->|N34].
      * split; [now apply esc_quote | reflexivity].
      * split. { apply esc_keep; auto. intros B. cbn in J, B. intuition congruence. }
        apply existsb_exists. exists c. rewrite N.eqb_refl. split; auto. cbn in *. tauto.
    + intros [_ H]. apply Bool.not_true_is_false. intros F. apply existsb_exists in F as (c & I & F). apply existsb_exists in F as (d & J & F).
      apply N.eqb_eq in F. subst d. apply in_esc in I as [[I NB]|[I|[-> I]]].
      * apply (H c I). cbn in J, NB |- *. intuition congruence.
      * cbn in I, J. intuition congruence.
      * apply (H 34%N I). cbn. tauto.
Qed.
Lemma simple_dec s : {unquoted s} + {~ unquoted s}.
Proof. destruct (is_simple (create_escapes s)) eqn:E; [left; now apply is_simple_spec | right; rewrite <- is_simple_spec; congruence]. Qed.
Lemma write_word_un s : unquoted s -> write_word s = create_escapes s.
Proof. intros H. unfold write_word. now rewrite (proj2 (is_simple_spec s) H). Qed.
Lemma write_word_qu s : ~ unquoted s -> write_word s = QUOTE :: create_escapes s ++ [QUOTE].
Proof. intros H. unfold write_word. destruct (is_simple (create_escapes s)) eqn:E; auto. apply is_simple_spec in E. contradiction. Qed.

(** Nothing written contains a NUL or a newline. *)
Definition clean (s : bytes) : Prop := forall c, In c s -> c <> 0%N /\ c <> 10%N.
Lemma clean_app a b : clean a -> clean b -> clean (a ++ b).
Proof. intros A B c I. apply in_app_or in I as [I|I]; auto. Qed.
Lemma clean_esc s : clean (create_escapes s).
Proof.
  intros c I. apply in_esc in I as [[I NB]|[I|[-> I]]].
  - split; intros ->; apply NB; cbn; tauto.
  - cbn in I. intuition congruence.
  - split; discriminate.
Qed.
Lemma clean_one c : c <> 0%N -> c <> 10%N -> clean [c].
Proof. intros A B d [<-|[]]. auto. Qed.
Lemma clean_word s : clean (write_word s).
Proof.
  unfold write_word. destruct (is_simple _); [apply clean_esc|]. change (QUOTE :: ?x) with ([QUOTE] ++ x).
  repeat apply clean_app; try apply clean_esc; apply clean_one; discriminate.
Qed.
Lemma clean_indent n : clean (write_indent n).
Proof. intros c I. apply repeat_spec in I. subst. split; discriminate. Qed.
Lemma c_str_clean s : clean s -> c_str s = s.
Proof.
  induction s as [|c s IH]; intros C; auto. cbn. destruct (C c (or_introl eq_refl)) as [A _]. apply N.eqb_neq in A. rewrite A. f_equal.
  apply IH. intros d I. apply C. now right.
Qed.
Lemma lines_line l r : clean l -> lines (l ++ NL :: r) = l :: lines r.
Proof.
  induction l as [|c l IH]; intros C; auto. cbn [app lines]. destruct (C c (or_introl eq_refl)) as [_ B].
  assert (F : N.eqb c NL = false) by now apply N.eqb_neq. rewrite F, IH; auto. intros d I. apply C. now right.
Qed.

(** ** Reading words *)
Lemma unquoted_chars s c : unquoted s -> In c (create_escapes s) -> is_space c = false /\ c <> 59%N /\ c <> 123%N /\ c <> 125%N /\ c <> 34%N.
Proof.
  intros [_ H] I. apply in_esc in I as [[I NB]|[I|[-> I]]].
  - assert (NI := H c I). assert (S : is_space c = false).
    { unfold is_space. cbn in NB, NI. destruct (N.eqb_spec c 32); [subst; tauto|]. destruct (N.leb_spec 9 c); [|reflexivity]. destruct (N.leb_spec c 13); [|reflexivity].
      exfalso. assert (c = 9 \/ c = 10 \/ c = 11 \/ c = 12 \/ c = 13)%N by lia. intuition congruence. }
    split; auto. cbn in NI. intuition congruence.
  - cbn in I. decompose [or] I; subst; try contradiction; (split; [reflexivity|]); repeat split; discriminate.
  - exfalso. apply (H 34%N I). cbn. tauto.
Qed.
Definition stops (r : bytes) : Prop := r = [] \/ exists r', r = 32%N :: r'.
Lemma span_plain w r : (forall c, In c w -> is_space c = false /\ c <> 59%N) -> stops r -> span_word (w ++ r) = (w, r).
Proof.
  induction w as [|c w IH]; intros H S; [destruct S as [->|(r' & ->)]; reflexivity|]. cbn [app span_word].
  destruct (H c (or_introl eq_refl)) as [A B]. apply N.eqb_neq in B. rewrite A, B. cbn [orb]. rewrite IH; auto. intros d I. apply H. now right.
Qed.
Lemma read_word_un s r : unquoted s -> stops r -> read_word (create_escapes s ++ r) = Some (s, r).
Proof.
  intros U S. unfold read_word. rewrite span_plain; auto. 2:{ intros c I. destruct (unquoted_chars s c U I) as (A & B & _). auto. }
  now rewrite expand_create'.
Qed.
Lemma span_quoted_esc s r : span_quoted false (create_escapes s ++ QUOTE :: r) = Some (create_escapes s, r).
Proof.
  induction s as [|c s IH]; [reflexivity|]. cbn [create_escapes flat_map]. fold (create_escapes s). rewrite <- app_assoc.
  destruct (esc_cases c) as [(x & E & X & B & Y)|[E NB]]; rewrite E; cbn [app span_quoted].
  - change (negb false && N.eqb 92 QUOTE) with false. change (negb false && N.eqb 92 92) with true. cbn match. cbn [negb andb].
    rewrite IH. reflexivity.
  - assert (F : N.eqb c QUOTE = false) by (apply N.eqb_neq; intros ->; apply NB; cbn; tauto).
    assert (G : N.eqb c 92 = false) by (apply N.eqb_neq; intros ->; apply NB; cbn; tauto). rewrite F, G. cbn [negb andb]. now rewrite IH.
Qed.
Lemma head_un s : unquoted s -> exists c r, create_escapes s = c :: r /\ is_space c = false /\ c <> 59%N /\ c <> 123%N /\ c <> 125%N /\ c <> 34%N.
Proof.
  intros U. destruct (create_escapes s) as [|c r] eqn:E; [apply esc_nil in E; destruct U as [U _]; congruence|].
  exists c, r. split; auto. apply (unquoted_chars s); auto. rewrite E. now left.
Qed.
Lemma head_word s : exists c r, write_word s = c :: r /\ is_space c = false /\ c <> 59%N /\ c <> 123%N /\ c <> 125%N.
Proof.
  destruct (simple_dec s) as [U|U].
  - rewrite write_word_un by auto. destruct (head_un s U) as (c & r & E & A & B & C & D & _). exists c, r. auto.
  - rewrite write_word_qu by auto. exists QUOTE. eexists. split; [reflexivity|]. repeat split; discriminate.
Qed.
Lemma skip_head c r : is_space c = false -> skip_ws (c :: r) = c :: r.
Proof. intros H. cbn. now rewrite H. Qed.
Lemma skip_indent n s : skip_ws (write_indent n ++ s) = skip_ws s.
Proof. unfold write_indent. induction (n * 4) as [|m IH]; auto. Qed.
Lemma eqb_no c d : c <> d -> N.eqb c d = false.
Proof. apply N.eqb_neq. Qed.

(** what may follow a quoted key *)
Definition starts_backslash (r : bytes) : bool := match skip_ws r with c :: _ => N.eqb c 92 | [] => false end.
Lemma read_key_word k r : stops r ->
  match read_key (write_word k ++ r) with
  | Some (k', r') => k' = k /\ (r' = r \/ r' = skip_ws r) /\ (unquoted k \/ starts_backslash r = false)
  | None => ~ unquoted k /\ starts_backslash r = true
  end.
Proof.
  intros S. destruct (simple_dec k) as [U|U].
  - rewrite write_word_un by auto. destruct (head_un k U) as (c & x & E & _ & _ & _ & _ & Q). unfold read_key. rewrite E. cbn [app].
    rewrite (eqb_no c QUOTE) by auto. change (c :: x ++ r) with ((c :: x) ++ r). rewrite <- E, read_word_un by auto. auto.
  - rewrite write_word_qu by auto. unfold read_key. cbn [app]. change (N.eqb QUOTE QUOTE) with true. cbn match. unfold read_string.
    change (N.eqb QUOTE QUOTE) with true. cbn match. rewrite <- app_assoc. cbn [app]. rewrite span_quoted_esc, expand_create'.
    unfold starts_backslash. destruct (skip_ws r) as [|b r3]; [auto|]. destruct (N.eqb b 92); auto.
Qed.
Lemma read_data_word d : read_data (write_word d) = Some (d, false, []).
Proof.
  destruct (simple_dec d) as [U|U].
  - rewrite write_word_un by auto. destruct (head_un d U) as (c & x & E & _ & _ & _ & _ & Q). unfold read_data. rewrite E.
    rewrite (eqb_no c QUOTE) by auto. rewrite <- E. rewrite <- (app_nil_r (create_escapes d)), read_word_un by (auto; now left). reflexivity.
  - rewrite write_word_qu by auto. unfold read_data. change (N.eqb QUOTE QUOTE) with true. cbn match. unfold read_string.
    change (N.eqb QUOTE QUOTE) with true. cbn match. rewrite span_quoted_esc, expand_create'. reflexivity.
Qed.
Lemma starts_backslash_word d : starts_backslash (32%N :: write_word d) = true <-> unquoted d /\ exists b r, d = b :: r /\ backslashed b.
Proof.
  unfold starts_backslash. change (skip_ws (32%N :: write_word d)) with (skip_ws (write_word d)).
  destruct (head_word d) as (c & x & E & SP & _). rewrite E, skip_head, <- (N.eqb_eq c) || rewrite E, skip_head by auto.
  destruct (simple_dec d) as [U|U].
  - rewrite write_word_un in E by auto. destruct d as [|b r]; [destruct U; congruence|]. cbn [create_escapes flat_map] in E.
    destruct (esc_cases b) as [(y & F & X & B & Y)|[F NB]]; rewrite F in E; cbn [app] in E; injection E as <- _.
    + split; [intros _; split; eauto | reflexivity].
    + split; [intros H; apply N.eqb_eq in H; subst; exfalso; apply NB; cbn; tauto | intros (_ & b' & r' & EQ & B); injection EQ as <- <-; contradiction].
  - rewrite write_word_qu in E by auto. injection E as <- _. split; [discriminate | intros [H _]; contradiction].
Qed.

(** ** Reading lines *)
Definition st (k0 : bytes) (t0 : ptree) (sk : list frame) (hl : bool) : pstate := mkP (k0, t0) sk hl MKey.
Lemma split_last_snoc' ks x : split_last (ks ++ [x]) = Some (ks, x).
Proof. unfold split_last. rewrite rev_app_distr. cbn. now rewrite rev_involutive. Qed.
Lemma not_hash_head k c r : ~ hash_key k -> write_word k = c :: r -> N.eqb c 35 = false.
Proof.
  intros H E. apply N.eqb_neq. intros ->. destruct (simple_dec k) as [U|U].
  - rewrite write_word_un in E by auto. destruct k as [|b k]; [discriminate|]. cbn [create_escapes flat_map] in E.
    destruct (esc_cases b) as [(y & F & _)|[F NB]]; rewrite F in E; injection E as E _; [discriminate|]. subst. apply H. now exists k.
  - rewrite write_word_qu in E by auto. discriminate.
Qed.
Lemma read_line_text line s : clean line -> (match skip_ws line with c :: _ => N.eqb c 35 = false | [] => True end) ->
  read_line line s = read_rest (S (length line)) line s.
Proof. intros C H. unfold read_line. rewrite c_str_clean by auto. destruct (skip_ws line) as [|c r]; auto. now rewrite H. Qed.
Lemma len_word s : 1 <= length (write_word s).
Proof. destruct (head_word s) as (c & r & E & _). rewrite E. cbn. lia. Qed.

(** "key value" *)
Lemma line_value n k d k0 t0 sk hl : ~ hash_key k ->
  read_line (write_indent n ++ write_word k ++ 32%N :: write_word d) (st k0 t0 sk hl) =
  if starts_backslash (32%N :: write_word d) && negb (if simple_dec k then true else false) then Err
  else Good (st k0 (add_kid t0 k (Node d [])) sk true).
Proof.
  intros H. destruct (head_word k) as (c & r & E & A & B & C & D).
  rewrite read_line_text.
  2:{ change (32%N :: write_word d) with ([32%N] ++ write_word d). repeat apply clean_app; try apply clean_indent; try apply clean_word. apply clean_one; discriminate. }
  2:{ rewrite skip_indent, E. cbn [app]. rewrite skip_head by auto. apply (not_hash_head k c r); auto. }
  assert (LE : exists f, S (length (write_indent n ++ write_word k ++ 32%N :: write_word d)) = S (S (S f))).
  { exists (length (write_indent n ++ write_word k ++ 32%N :: write_word d) - 2). rewrite !app_length. cbn [length].
    pose proof (len_word k). pose proof (len_word d). lia. }
  destruct LE as (f & LE). rewrite LE. clear LE. cbn [read_rest]. rewrite skip_indent, E. cbn [app]. rewrite skip_head by auto.
  rewrite (eqb_no c 59), (eqb_no c LBRACE), (eqb_no c RBRACE) by auto. unfold st at 1. cbn [md].
  change (c :: r ++ 32%N :: write_word d) with ((c :: r) ++ 32%N :: write_word d). rewrite <- E.
  pose proof (read_key_word k (32%N :: write_word d) ltac:(right; eauto)) as RK.
  destruct (read_key (write_word k ++ 32%N :: write_word d)) as [[k' r']|].
  2:{ destruct RK as [U SB]. rewrite SB. destruct (simple_dec k); [contradiction|]. reflexivity. }
  destruct RK as (-> & R' & OK).
  assert (IFF : starts_backslash (32%N :: write_word d) && negb (if simple_dec k then true else false) = false).
  { destruct OK as [U|SB]; [destruct (simple_dec k); [|contradiction]; now rewrite Bool.andb_false_r | now rewrite SB]. }
  rewrite IFF.
  assert (SK : skip_ws r' = write_word d).
  { destruct (head_word d) as (c' & x & E' & A' & _). destruct R' as [-> | ->]; cbn [skip_ws]; change (is_space 32) with true; cbn match; rewrite E'; rewrite !skip_head by auto; auto. }
  rewrite SK. destruct (head_word d) as (c' & x & E' & A' & B' & C' & D'). rewrite E'.
  rewrite (eqb_no c' 59), (eqb_no c' LBRACE), (eqb_no c' RBRACE) by auto. cbn [new_kid md]. rewrite <- E', read_data_word.
  unfold upd_last, new_kid, st, add_kid. cbn [top stk has_last snd fst pkids pdata]. rewrite split_last_snoc'. cbn [skip_ws md top stk has_last]. reflexivity.
Qed.
(** "key" *)
Lemma line_key n k k0 t0 sk hl : ~ hash_key k ->
  read_line (write_indent n ++ write_word k) (st k0 t0 sk hl) = Good (st k0 (add_kid t0 k pempty) sk true).
Proof.
  intros H. destruct (head_word k) as (c & r & E & A & B & C & D).
  rewrite read_line_text.
  2:{ repeat apply clean_app; try apply clean_indent; try apply clean_word. }
  2:{ rewrite skip_indent, E. rewrite skip_head by auto. apply (not_hash_head k c r); auto. }
  assert (LE : exists f, S (length (write_indent n ++ write_word k)) = S (S f)).
  { exists (length (write_indent n ++ write_word k) - 1). rewrite !app_length. pose proof (len_word k). lia. }
  destruct LE as (f & LE). rewrite LE. clear LE. cbn [read_rest]. rewrite skip_indent, E. rewrite skip_head by auto.
  rewrite (eqb_no c 59), (eqb_no c LBRACE), (eqb_no c RBRACE) by auto. unfold st at 1. cbn [md]. rewrite <- E.
  pose proof (read_key_word k [] ltac:(now left)) as RK. rewrite app_nil_r in RK.
  destruct (read_key (write_word k)) as [[k' r']|].
  2:{ destruct RK as [_ X]. discriminate X. }
  destruct RK as (-> & R' & _). assert (r' = []) by (destruct R' as [-> | ->]; reflexivity). subst r'. reflexivity.
Qed.
Lemma line_open n k0 d0 ks k c sk : 
  read_line (write_indent n ++ [LBRACE]) (st k0 (Node d0 (ks ++ [(k, c)])) sk true) = Good (st k c ((k0, Node d0 ks) :: sk) false).
Proof.
  rewrite read_line_text.
  2:{ apply clean_app; [apply clean_indent | apply clean_one; discriminate]. }
  2:{ rewrite skip_indent. reflexivity. }
  assert (LE : exists f, S (length (write_indent n ++ [LBRACE])) = S (S f)) by (exists (length (write_indent n)); rewrite app_length; cbn; lia).
  destruct LE as (f & LE). rewrite LE. cbn [read_rest]. rewrite skip_indent. cbn [skip_ws]. change (is_space LBRACE) with false. cbn match.
  change (N.eqb LBRACE 59) with false. change (N.eqb LBRACE LBRACE) with true. unfold st at 1. cbn match beta. cbn [md has_last]. unfold push_last, st. cbn [top snd pkids].
  rewrite split_last_snoc'. reflexivity.
Qed.
Lemma line_close n k0 t0 k t sk hl : read_line (write_indent n ++ [RBRACE]) (st k t ((k0, t0) :: sk) hl) = Good (st k0 (add_kid t0 k t) sk false).
Proof.
  rewrite read_line_text.
  2:{ apply clean_app; [apply clean_indent | apply clean_one; discriminate]. }
  2:{ rewrite skip_indent. reflexivity. }
  assert (LE : exists f, S (length (write_indent n ++ [RBRACE])) = S (S f)) by (exists (length (write_indent n)); rewrite app_length; cbn; lia).
  destruct LE as (f & LE). rewrite LE. cbn [read_rest]. rewrite skip_indent. cbn [skip_ws]. change (is_space RBRACE) with false. cbn match.
  reflexivity.
Qed.

(** ** Reading trees *)
Definition write_kids (n : nat) (l : list (bytes * ptree)) : bytes :=
  flat_map (fun p => write_indent n ++ write_word (fst p) ++ write_node n (snd p)) l.
Lemma write_node_eq n d ks : write_node n (Node d ks) =
  (match d, ks with _ :: _, _ => 32%N :: write_word d ++ [NL] | [], [] => [32%N; QUOTE; QUOTE; NL] | [], _ :: _ => [NL] end) ++
  (match ks with [] => [] | _ => write_indent n ++ [LBRACE; NL] ++ write_kids (S n) ks ++ write_indent n ++ [RBRACE; NL] end).
Proof.
  cbn [write_node]. f_equal. destruct ks as [|[k c] ks]; auto. do 2 f_equal. f_equal. unfold write_kids. cbn [flat_map fst snd]. f_equal.
  induction ks as [|[k' c'] ks IH]; auto. cbn [flat_map fst snd]. now rewrite IH.
Qed.
(** A node is its key line followed, if it has children, by the block. *)
Lemma key_line n k d ks rest : write_indent n ++ write_word k ++ write_node n (Node d ks) ++ rest =
  (write_indent n ++ write_word k ++ (match d, ks with [], _ :: _ => [] | _, _ => 32%N :: write_word d end)) ++ NL ::
  (match ks with [] => [] | _ => (write_indent n ++ [LBRACE]) ++ NL :: write_kids (S n) ks ++ (write_indent n ++ [RBRACE]) ++ [NL] end) ++ rest.
Proof.
  rewrite write_node_eq. destruct d as [|b d]; destruct ks as [|kc ks]; cbn [app]; rewrite <- ?app_assoc; cbn [app]; rewrite <- ?app_assoc; cbn [app]; try reflexivity.
  all: repeat (rewrite <- ?app_assoc; cbn [app]); reflexivity.
Qed.
Lemma clean_key_line n k d (ks : list (bytes * ptree)) : clean (write_indent n ++ write_word k ++ (match d, ks with [], _ :: _ => [] | _, _ => 32%N :: write_word d end)).
Proof.
  apply clean_app; [apply clean_indent|]. apply clean_app; [apply clean_word|].
  assert (X : clean (32%N :: write_word d)) by (change (32%N :: write_word d) with ([32%N] ++ write_word d); apply clean_app; [apply clean_one; discriminate | apply clean_word]).
  destruct d, ks; auto. intros c [].
Qed.
Lemma read_key_line n k d (ks : list (bytes * ptree)) k0 t0 sk hl : ~ hash_key k ->
  read_line (write_indent n ++ write_word k ++ (match d, ks with [], _ :: _ => [] | _, _ => 32%N :: write_word d end)) (st k0 t0 sk hl) =
  if starts_backslash (32%N :: write_word d) && negb (if simple_dec k then true else false) then Err
  else Good (st k0 (add_kid t0 k (Node d [])) sk true).
Proof.
  intros H. assert (V := line_value n k d k0 t0 sk hl H). destruct d as [|b d]; [|exact V]. destruct ks as [|kc ks]; [exact V|].
  rewrite app_nil_r. rewrite line_key by auto. reflexivity.
Qed.
Lemma clash_spec k d ks : starts_backslash (32%N :: write_word d) && negb (if simple_dec k then true else false) = true <-> clash k (Node d ks).
Proof.
  rewrite Bool.andb_true_iff, starts_backslash_word. unfold clash. cbn [pdata]. destruct (simple_dec k) as [U|U]; cbn [negb]; intuition discriminate.
Qed.
Definition resume (rest : bytes) (s : pstate) : pres := read_lines (lines rest) s.
Lemma resume_line l rest s s' : clean l -> read_line l s = Good s' -> resume (l ++ NL :: rest) s = resume rest s'.
Proof. intros C R. unfold resume. rewrite lines_line by auto. cbn [read_lines]. now rewrite R. Qed.
Lemma resume_err l rest s : clean l -> read_line l s = Err -> resume (l ++ NL :: rest) s = Err.
Proof. intros C R. unfold resume. rewrite lines_line by auto. cbn [read_lines]. now rewrite R. Qed.
Lemma everywhere_inv P d ks : everywhere P (Node d ks) -> forall k c, In (k, c) ks -> P k c /\ everywhere P c.
Proof. intros E. inversion E; subst. auto. Qed.
Definition no_hash (k : bytes) (c : ptree) : Prop := ~ hash_key k.
Definition no_clash (k : bytes) (c : ptree) : Prop := ~ clash k c.
Lemma clean_brace n b : b <> 0%N -> b <> 10%N -> clean (write_indent n ++ [b]).
Proof. intros. apply clean_app; [apply clean_indent | now apply clean_one]. Qed.

Definition node_good (t : ptree) : Prop := forall n k k0 t0 sk hl rest, everywhere no_hash t -> everywhere no_clash t -> ~ hash_key k -> ~ clash k t ->
  exists hl', resume (write_indent n ++ write_word k ++ write_node n t ++ rest) (st k0 t0 sk hl) = resume rest (st k0 (add_kid t0 k t) sk hl').
Lemma kids_good ks : (forall k c, In (k, c) ks -> no_hash k c /\ everywhere no_hash c) -> (forall k c, In (k, c) ks -> no_clash k c /\ everywhere no_clash c) ->
  Forall (fun kc => node_good (snd kc)) ks -> forall n k0 t0 sk hl rest, exists hl',
  resume (write_kids n ks ++ rest) (st k0 t0 sk hl) = resume rest (st k0 (Node (pdata t0) (pkids t0 ++ ks)) sk hl').
Proof.
  intros H C F. induction F as [|[k c] ks N F IH]; intros n k0 t0 sk hl rest.
  - exists hl. cbn. rewrite app_nil_r. now destruct t0.
  - cbn [write_kids flat_map fst snd]. fold (write_kids n ks). rewrite <- !app_assoc.
    destruct (H k c (or_introl eq_refl)) as [H1 H2]. destruct (C k c (or_introl eq_refl)) as [C1 C2].
    cbn [snd] in N. destruct (N n k k0 t0 sk hl (write_kids n ks ++ rest) H2 C2 H1 C1) as (h1 & E1). rewrite E1.
    destruct (IH ltac:(intros; apply H; now right) ltac:(intros; apply C; now right) n k0 (add_kid t0 k c) sk h1 rest) as (h2 & E2).
    exists h2. rewrite E2. unfold add_kid. cbn [pdata pkids]. rewrite <- app_assoc. reflexivity.
Qed.
Lemma all_good t : node_good t.
Proof.
  induction t as [d ks IH] using ptree_ind'. intros n k k0 t0 sk hl rest H C HK CK.
  assert (NC : starts_backslash (32%N :: write_word d) && negb (if simple_dec k then true else false) = false)
    by (apply Bool.not_true_is_false; rewrite (clash_spec k d ks); exact CK).
  pose proof (read_key_line n k d ks k0 t0 sk hl HK) as RK. rewrite NC in RK.
  rewrite key_line. rewrite (resume_line _ _ _ _ (clean_key_line n k d ks) RK).
  destruct ks as [|kc ks]; [exists true; reflexivity|].
  rewrite <- !app_assoc. cbn [app]. rewrite <- !app_assoc. cbn [app].
  replace (write_indent n ++ LBRACE :: NL :: write_kids (S n) (kc :: ks) ++ write_indent n ++ RBRACE :: NL :: rest)
    with ((write_indent n ++ [LBRACE]) ++ NL :: write_kids (S n) (kc :: ks) ++ (write_indent n ++ [RBRACE]) ++ NL :: rest)
    by (rewrite <- !app_assoc; reflexivity).
  rewrite (resume_line _ _ _ _ (clean_brace n LBRACE ltac:(discriminate) ltac:(discriminate)) (line_open n k0 (pdata t0) (pkids t0) k (Node d []) sk)).
  destruct (kids_good (kc :: ks) (everywhere_inv _ _ _ H) (everywhere_inv _ _ _ C) IH (S n) k (Node d []) ((k0, Node (pdata t0) (pkids t0)) :: sk) false
             ((write_indent n ++ [RBRACE]) ++ NL :: rest)) as (h & E).
  rewrite E. exists false.
  rewrite (resume_line _ _ _ _ (clean_brace n RBRACE ltac:(discriminate) ltac:(discriminate)) (line_close n k0 (Node (pdata t0) (pkids t0)) k _ sk h)).
  destruct t0; reflexivity.
Qed.

(** ** What makes loading fail *)
Lemma clash_dec k c : {clash k c} + {~ clash k c}.
Proof.
  destruct c as [d ks]. destruct (starts_backslash (32%N :: write_word d) && negb (if simple_dec k then true else false)) eqn:E.
  - left. now apply clash_spec.
  - right. intros X. apply clash_spec in X. congruence.
Qed.
Lemma clash_anywhere t : somewhere clash t \/ everywhere no_clash t.
Proof.
  induction t as [d ks IH] using ptree_ind'.
  enough (X : somewhere clash (Node d ks) \/ (forall k c, In (k, c) ks -> no_clash k c /\ everywhere no_clash c)).
  { destruct X; [now left | right; constructor; auto]. }
  induction IH as [|[k c] ks N F IHk]; [right; intros ? ? []|].
  destruct (clash_dec k c) as [C|C]; [left; eapply somewhere_here; [now left | auto]|].
  destruct N as [N|N]; [left; eapply somewhere_below; [now left | exact N]|].
  destruct IHk as [S|S].
  - left. inversion S; subst; [eapply somewhere_here | eapply somewhere_below]; eauto; right; eauto.
  - right. intros k' c' [E|I]; [injection E as <- <-; auto | auto].
Qed.
Definition node_bad (t : ptree) : Prop := forall n k k0 t0 sk hl rest, everywhere no_hash t -> ~ hash_key k -> clash k t \/ somewhere clash t ->
  resume (write_indent n ++ write_word k ++ write_node n t ++ rest) (st k0 t0 sk hl) = Err.
Lemma kids_bad ks : (forall k c, In (k, c) ks -> no_hash k c /\ everywhere no_hash c) ->
  (exists k c, In (k, c) ks /\ (clash k c \/ somewhere clash c)) ->
  Forall (fun kc => node_bad (snd kc)) ks -> forall n k0 t0 sk hl rest,
  resume (write_kids n ks ++ rest) (st k0 t0 sk hl) = Err.
Proof.
  intros H X F. induction F as [|[k c] ks N F IH]; intros n k0 t0 sk hl rest; [destruct X as (? & ? & [] & _)|].
  cbn [write_kids flat_map fst snd]. fold (write_kids n ks). rewrite <- !app_assoc.
  destruct (H k c (or_introl eq_refl)) as [H1 H2]. 
  destruct (clash_dec k c) as [C|C]; [apply N; auto|]. destruct (clash_anywhere c) as [S|S]; [apply N; auto|].
  destruct (all_good c n k k0 t0 sk hl (write_kids n ks ++ rest) H2 S H1 C) as (h1 & E1). rewrite E1. apply IH.
  - intros; apply H; now right.
  - destruct X as (k' & c' & [E|I] & [Y|Y]).
    + injection E as <- <-. contradiction.
    + injection E as <- <-. exfalso. clear - Y S. revert S. induction Y as [d ks k c I C | d ks k c I Y IH]; intros S; apply (everywhere_inv _ _ _ S) in I as [I1 I2]; [now apply I1 | auto].
    + eauto. + eauto.
Qed.
Lemma all_bad t : node_bad t.
Proof.
  induction t as [d ks IH] using ptree_ind'. intros n k k0 t0 sk hl rest H HK B.
  pose proof (read_key_line n k d ks k0 t0 sk hl HK) as RK. rewrite key_line.
  destruct (clash_dec k (Node d ks)) as [C|C].
  - apply clash_spec in C. rewrite C in RK. apply resume_err; auto. apply clean_key_line.
  - assert (NC : starts_backslash (32%N :: write_word d) && negb (if simple_dec k then true else false) = false)
      by (apply Bool.not_true_is_false; rewrite (clash_spec k d ks); exact C).
    rewrite NC in RK. rewrite (resume_line _ _ _ _ (clean_key_line n k d ks) RK).
    destruct B as [B|B]; [contradiction|].
    assert (X : exists k c, In (k, c) ks /\ (clash k c \/ somewhere clash c)) by (inversion B; subst; eauto).
    destruct ks as [|kc ks]; [destruct X as (? & ? & [] & _)|].
    rewrite <- !app_assoc. cbn [app]. rewrite <- !app_assoc. cbn [app].
    replace (write_indent n ++ LBRACE :: NL :: write_kids (S n) (kc :: ks) ++ write_indent n ++ RBRACE :: NL :: rest)
      with ((write_indent n ++ [LBRACE]) ++ NL :: write_kids (S n) (kc :: ks) ++ write_indent n ++ RBRACE :: NL :: rest)
      by (rewrite <- !app_assoc; reflexivity).
    rewrite (resume_line _ _ _ _ (clean_brace n LBRACE ltac:(discriminate) ltac:(discriminate)) (line_open n k0 (pdata t0) (pkids t0) k (Node d []) sk)).
    apply kids_bad; auto. exact (everywhere_inv _ _ _ H).
Qed.

(** ** C120 *)
(** If no key begins with '#', saving a tree and loading the file gives the tree back (without the data of the root, which
    is not written) ... *)
Theorem info_roundtrip_partial : forall t old, everywhere no_hash t -> everywhere no_clash t ->
  loadInfo old (saveInfo t) = Some (Node [] (pkids t), Ok tt).
Proof.
  intros [d ks] old H C. unfold loadInfo, read_info_file, saveInfo, write_info. cbn [pkids].
  change (flat_map _ ks) with (write_kids 0 ks).
  assert (G : Forall (fun kc => node_good (snd kc)) ks) by (apply Forall_forall; intros; apply all_good).
  destruct (kids_good ks (everywhere_inv _ _ _ H) (everywhere_inv _ _ _ C) G 0 [] pempty [] false []) as (h & E).
  rewrite app_nil_r in E. unfold resume, st in E. rewrite E. reflexivity.
Qed.
(** ... unless some quoted key is followed by an unquoted value beginning with a character that needs a backslash: then,
    and only then, loading fails and leaves the tree that was there. *)
Theorem info_fails : forall t old, everywhere no_hash t -> somewhere clash t -> loadInfo old (saveInfo t) = Some (old, ParseError).
Proof.
  intros [d ks] old H B. unfold loadInfo, read_info_file, saveInfo, write_info. cbn [pkids].
  change (flat_map _ ks) with (write_kids 0 ks).
  assert (X : exists k c, In (k, c) ks /\ (clash k c \/ somewhere clash c)) by (inversion B; subst; eauto).
  assert (G : Forall (fun kc => node_bad (snd kc)) ks) by (apply Forall_forall; intros; apply all_bad).
  pose proof (kids_bad ks (everywhere_inv _ _ _ H) X G 0 [] pempty [] false []) as E.
  rewrite app_nil_r in E. unfold resume, st in E. rewrite E. reflexivity.
Qed.
Theorem info_root_data_refuted : exists t old, loadInfo old (saveInfo t) = Some (pempty, Ok tt) /\ t <> pempty.
Proof. exists (Node (str "v") []), pempty. split; [reflexivity | discriminate]. Qed.
Theorem info_hash_refuted : exists t, pdata t = [] /\ forall old, loadInfo old (saveInfo t) = Some (old, ParseError).
Proof. exists (Node [] [(str "#a", Node (str "1") [])]). split; auto. Qed.
(** A key #include makes loading read another file. *)
Theorem info_include_refuted : exists t, pdata t = [] /\ forall old, loadInfo old (saveInfo t) = None.
Proof. exists (Node [] [(str "#include", Node (str "a b") [])]). split; auto. Qed.
Theorem info_clash_refuted : exists t, pdata t = [] /\ everywhere no_hash t /\ forall old, loadInfo old (saveInfo t) = Some (old, ParseError).
Proof.
  exists (Node [] [(str "a b", Node (92%N :: str "x") [])]). split; auto. split; [|reflexivity].
  constructor. intros k c [E|[]]. injection E as <- <-. split; [intros (r & X); discriminate X | constructor; intros ? ? []].
Qed.
(** A tree with nested nodes, data beside children, repeated and empty keys, escapes, quotes and comment characters *)
Definition ex_tree : ptree :=
  Node [] [(str "a", Node (str "x y") [(str "b", pempty); ([], Node [10; 0; 34; 92]%N []); (str "b", Node (str ";{}") [])]);
           (str "k;", Node (str "#v") []); (str "a", pempty)].
Lemma ev (P : bytes -> ptree -> Prop) d ks : Forall (fun kc => P (fst kc) (snd kc) /\ everywhere P (snd kc)) ks -> everywhere P (Node d ks).
Proof. intros F. constructor. intros k c I. rewrite Forall_forall in F. exact (F _ I). Qed.
Example ex_tree_ok : everywhere no_hash ex_tree /\ everywhere no_clash ex_tree.
Proof.
  split; repeat (apply ev || apply Forall_nil || apply Forall_cons || split); cbn [fst snd].
  all: try (intros (r & X); discriminate X).
  all: intros (A & B & b & r & X & Y).
  all: try discriminate X; injection X as <- <-; unfold backslashed in Y; cbn in Y; try (intuition discriminate).
  destruct B as [_ B]. apply (B 34%N); cbn; tauto.
Qed.
