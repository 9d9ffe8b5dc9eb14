(** C120, values over several lines: quoted pieces, each but the last followed by a backslash and possibly a comment. *)
From Verif Require Import Bytes Strings_Model PTree_Model InfoFile_Model InfoFile_Props.
Open Scope nat_scope.

(** a piece of text in quotes *)
Definition quoted (p : bytes) : bytes := str """" ++ create_escapes p ++ str """".
(** [(p, w, c)]: the piece, blanks around the backslash, and a comment (or nothing) up to the end of the line *)
Definition comment (c : bytes) : Prop := clean c /\ (c = [] \/ exists r, c = str ";" ++ r).
Definition continued (x : bytes * nat * bytes) : bytes := let '(p, n, c) := x in write_indent n ++ quoted p ++ write_indent n ++ str "\" ++ write_indent n ++ c.
Definition spread (k : bytes) (first : bytes * nat * bytes) (more : list (bytes * nat * bytes)) (last : bytes) (c : bytes) : bytes :=
  write_word k ++ str " " ++ continued first ++ [10%N] ++ flat_map (fun x => continued x ++ [10%N]) more ++ quoted last ++ c ++ [10%N].
Definition piece (x : bytes * nat * bytes) : bytes := fst (fst x).

Lemma indent_ws n : forallb is_space (write_indent n) = true.
Proof. unfold write_indent. induction (n * 4) as [|m IH]; auto. Qed.
Lemma clean_quoted p : clean (quoted p).
Proof. unfold quoted. repeat apply clean_app; try apply clean_esc; apply clean_one; discriminate. Qed.
Lemma clean_continued x : comment (snd x) -> clean (continued x).
Proof. destruct x as [[p n] c]. intros [C _]. cbn [snd] in C. cbn [continued]. apply clean_app; [apply clean_indent|]. apply clean_app; [apply clean_quoted|]. apply clean_app; [apply clean_indent|]. apply clean_app; [apply clean_one; discriminate|]. apply clean_app; [apply clean_indent | exact C]. Qed.
Lemma read_quoted p r : read_string true (quoted p ++ r) =
  match skip_ws r with
  | b :: r3 => if N.eqb b 92 then match skip_ws r3 with [] => Some (p, true, []) | e :: r4 => if N.eqb e 59 then Some (p, true, e :: r4) else None end else Some (p, false, b :: r3)
  | [] => Some (p, false, [])
  end.
Proof.
  unfold quoted. rewrite <- !app_assoc. change (str """") with [QUOTE]. cbn [app read_string]. change (N.eqb QUOTE QUOTE) with true. cbn match.
  rewrite span_quoted_esc, expand_create'. destruct (skip_ws r); reflexivity.
Qed.
Lemma read_continued p n c : comment c -> exists r, read_string true (quoted p ++ write_indent n ++ str "\" ++ write_indent n ++ c) = Some (p, true, r) /\ (r = [] \/ exists x, r = 59%N :: x).
Proof.
  intros [_ C]. rewrite read_quoted, skip_indent. change (str "\") with [92%N]. cbn [app]. rewrite skip_head by reflexivity. change (N.eqb 92 92) with true. cbn match. rewrite skip_indent.
  destruct C as [-> | (r & ->)]; [cbn; eauto|]. change (str ";" ++ r) with (59%N :: r). rewrite skip_head by reflexivity. cbn. eauto.
Qed.
Lemma rest_end f r s : r = [] \/ (exists x, r = 59%N :: x) -> md s = MCont -> read_rest (S f) r s = Good s.
Proof. intros H M. destruct s as [t k h m]. cbn in M. subst m. destruct H as [-> | (x & ->)]; reflexivity. Qed.
Lemma len_quoted p : 2 <= length (quoted p).
Proof. unfold quoted. rewrite !app_length. cbn. lia. Qed.
(** a line that continues a value *)
Lemma cont_line x k0 d0 ks k d sk : comment (snd x) ->
  read_line (continued x) (mkP (k0, Node d0 (ks ++ [(k, Node d [])])) sk true MCont) = Good (mkP (k0, Node d0 (ks ++ [(k, Node (d ++ piece x) [])])) sk true MCont).
Proof.
  intros C. pose proof (clean_continued x C) as CL. destruct x as [[p n] c]. cbn [snd piece fst] in *. cbn [continued] in *.
  assert (H : forall r, skip_ws (write_indent n ++ quoted p ++ r) = quoted p ++ r) by (intros r; rewrite skip_indent; reflexivity).
  rewrite read_line_text; [|exact CL | rewrite H; reflexivity]. rewrite app_length. pose proof (len_quoted p) as LQ. rewrite (app_length (quoted p)).
  destruct (length (write_indent n) + (length (quoted p) + length (write_indent n ++ str "\" ++ write_indent n ++ c))) as [|f] eqn:F; [lia|].
  cbn [read_rest]. rewrite H. destruct (read_continued p n c C) as (r & R & E).
  assert (Q : forall r', quoted p ++ r' = QUOTE :: create_escapes p ++ QUOTE :: r') by (intros r'; unfold quoted; rewrite <- !app_assoc; reflexivity).
  rewrite Q in *. change (N.eqb QUOTE 59) with false. change (N.eqb QUOTE QUOTE) with true. cbn match. cbn [md]. rewrite R. unfold upd_last. cbn [top snd fst stk has_last pkids pdata]. rewrite split_last_snoc'.
  apply rest_end; auto.
Qed.
(** the last line *)
Lemma last_line p c k0 d0 ks k d sk : comment c ->
  read_line (quoted p ++ c) (mkP (k0, Node d0 (ks ++ [(k, Node d [])])) sk true MCont) = Good (mkP (k0, Node d0 (ks ++ [(k, Node (d ++ p) [])])) sk true MKey).
Proof.
  intros [CL C]. rewrite read_line_text; [|apply clean_app; auto using clean_quoted | reflexivity]. rewrite app_length. pose proof (len_quoted p) as LQ.
  destruct (length (quoted p) + length c) as [|f] eqn:F; [lia|]. cbn [read_rest].
  assert (R : exists r, read_string true (quoted p ++ c) = Some (p, false, r) /\ (r = [] \/ exists x, r = 59%N :: x)).
  { rewrite read_quoted. destruct C as [-> | (r & ->)]; [cbn; eauto|]. change (str ";" ++ r) with (59%N :: r). rewrite skip_head by reflexivity. cbn. eauto. }
  destruct R as (r & R & E).
  assert (Q : forall r', quoted p ++ r' = QUOTE :: create_escapes p ++ QUOTE :: r') by (intros r'; unfold quoted; rewrite <- !app_assoc; reflexivity).
  rewrite Q in *. rewrite skip_head by reflexivity. change (N.eqb QUOTE 59) with false. change (N.eqb QUOTE QUOTE) with true. cbn match. cbn [md]. rewrite R. unfold upd_last. cbn [top snd fst stk has_last pkids pdata]. rewrite split_last_snoc'.
  destruct E as [-> | (x & ->)]; reflexivity.
Qed.
(** the first line *)
Lemma first_line k x k0 d0 ks sk hl : ~ hash_key k -> comment (snd x) ->
  read_line (write_word k ++ 32%N :: continued x) (mkP (k0, Node d0 ks) sk hl MKey) = Good (mkP (k0, Node d0 (ks ++ [(k, Node (piece x) [])])) sk true MCont).
Proof.
  intros HK C. pose proof (clean_continued x C) as CL. destruct (head_word k) as (c0 & r0 & E & SP & N59 & NL1 & NR1).
  assert (NH : N.eqb c0 35 = false) by exact (not_hash_head k c0 r0 HK E).
  rewrite read_line_text.
  2:{ apply clean_app; [apply clean_word|]. change (32%N :: continued x) with ([32%N] ++ continued x). apply clean_app; auto. apply clean_one; discriminate. }
  2:{ rewrite E. cbn [app]. rewrite skip_head by auto. exact NH. }
  rewrite app_length. cbn [length].
  assert (LX : 2 <= length (continued x)). { destruct x as [[p n] c]. cbn [continued]. rewrite !app_length. pose proof (len_quoted p). lia. }
  assert (LW : 1 <= length (write_word k)) by apply len_word.
  destruct (length (write_word k) + S (length (continued x))) as [|f] eqn:F; [lia|]. cbn [read_rest].
  assert (K : exists r, read_key (write_word k ++ 32%N :: continued x) = Some (k, r) /\ skip_ws r = skip_ws (continued x)).
  { assert (SB : starts_backslash (32%N :: continued x) = false).
    { destruct x as [[p n] c]. unfold starts_backslash. cbn [continued]. change (32%N :: ?z) with ([32%N] ++ z). cbn [app]. change (skip_ws (32%N :: ?z)) with (skip_ws z). rewrite skip_indent. reflexivity. }
    pose proof (read_key_word k (32%N :: continued x) (or_intror (ex_intro _ _ eq_refl))) as R. destruct (read_key (write_word k ++ 32%N :: continued x)) as [[k' r']|].
    - destruct R as (-> & R & _). exists r'. split; auto. destruct R as [-> | ->]; [reflexivity|]. change (skip_ws (32%N :: continued x)) with (skip_ws (continued x)).
      destruct x as [[p n] c]. cbn [continued]. rewrite skip_indent. reflexivity.
    - destruct R as [_ R]. congruence. }
  destruct K as (r & K & KS). rewrite E in *. cbn [app] in *. rewrite skip_head by auto. rewrite (eqb_no _ _ N59), (eqb_no c0 LBRACE), (eqb_no c0 RBRACE) by auto. cbn [md]. rewrite K.
  destruct f as [|f]; [cbn in F; lia|]. cbn [read_rest]. rewrite KS. destruct x as [[p n] c]. cbn [snd piece fst] in *. cbn [continued]. rewrite skip_indent.
  destruct (read_continued p n c C) as (r1 & R & E1).
  assert (Q : forall r', quoted p ++ r' = QUOTE :: create_escapes p ++ QUOTE :: r') by (intros r'; unfold quoted; rewrite <- !app_assoc; reflexivity).
  rewrite Q in *. rewrite skip_head by reflexivity. change (N.eqb QUOTE 59) with false. change (N.eqb QUOTE LBRACE) with false. change (N.eqb QUOTE RBRACE) with false. cbn match. unfold new_kid. cbn [md top snd fst stk add_kid].
  unfold read_data. change (N.eqb QUOTE QUOTE) with true. cbn match. rewrite R. unfold upd_last, add_kid. cbn [top snd fst stk has_last pkids pdata]. rewrite split_last_snoc'.
  destruct E1 as [-> | (x & ->)]; reflexivity.
Qed.
(** Such a value is the concatenation of its pieces. *)
Theorem info_continuation : forall old k first more last c, ~ hash_key k -> comment (snd first) -> (forall x, In x more -> comment (snd x)) -> comment c ->
  loadInfo old (spread k first more last c) = Some (Node [] [(k, Node (piece first ++ flat_map piece more ++ last) [])], Ok tt).
Proof.
  intros old k first more last c HK CF CM CC. unfold loadInfo, read_info_file, spread.
  change (str " ") with [32%N]. change 10%N with NL.
  assert (RL : forall T s, read_lines (lines T) s = resume T s) by reflexivity. rewrite RL.
  replace (write_word k ++ [32%N] ++ continued first ++ [NL] ++ flat_map (fun x => continued x ++ [NL]) more ++ quoted last ++ c ++ [NL])
    with ((write_word k ++ 32%N :: continued first) ++ NL :: flat_map (fun x => continued x ++ [NL]) more ++ (quoted last ++ c) ++ NL :: []) by (rewrite <- !app_assoc; reflexivity).
  rewrite (resume_line (write_word k ++ 32%N :: continued first) _ _ _ ltac:(apply clean_app; [apply clean_word|]; change (32%N :: continued first) with ([32%N] ++ continued first); apply clean_app; [apply clean_one; discriminate | now apply clean_continued]) (first_line k first [] [] [] [] false HK CF)).
  cbn [app]. generalize (piece first) as d. 
  induction more as [|x more IH]; intros d; cbn [flat_map app].
  - rewrite (resume_line (quoted last ++ c) _ _ _ ltac:(apply clean_app; [apply clean_quoted | apply CC]) (last_line last c [] [] [] k d [] CC)). reflexivity.
  - match goal with |- context [resume (((continued x ++ [NL]) ++ ?F) ++ ?R)] => replace (((continued x ++ [NL]) ++ F) ++ R) with (continued x ++ NL :: (F ++ R)) by (rewrite <- !app_assoc; reflexivity) end.
    rewrite (resume_line _ _ _ _ (clean_continued x (CM x (or_introl eq_refl))) (cont_line x [] [] [] k d [] (CM x (or_introl eq_refl)))).
    cbn [app]. replace (d ++ (piece x ++ flat_map piece more) ++ last) with ((d ++ piece x) ++ flat_map piece more ++ last) by (now rewrite <- !app_assoc). apply IH. intros y I. apply CM. now right.
Qed.
(** Without the backslash the next line is not part of the value. *)
Theorem info_no_continuation : forall old k p q, ~ hash_key k -> ~ hash_key q -> ~ clash k (Node p []) ->
  loadInfo old (write_word k ++ str " " ++ write_word p ++ [10%N] ++ write_word q ++ [10%N]) = Some (Node [] [(k, Node p []); (q, pempty)], Ok tt).
Proof.
  intros old k p q HK HQ NC. unfold loadInfo, read_info_file. change (str " ") with [32%N]. change 10%N with NL.
  assert (RL : forall T s, read_lines (lines T) s = resume T s) by reflexivity. rewrite RL.
  replace (write_word k ++ [32%N] ++ write_word p ++ [NL] ++ write_word q ++ [NL]) with ((write_indent 0 ++ write_word k ++ 32%N :: write_word p) ++ NL :: (write_indent 0 ++ write_word q) ++ NL :: []) by (cbn [write_indent Nat.mul repeat app]; rewrite <- !app_assoc; reflexivity).
  pose proof (line_value 0 k p [] (Node [] []) [] false HK) as L1. destruct (starts_backslash (32%N :: write_word p) && negb (if simple_dec k then true else false)) eqn:X in L1; [exfalso; apply NC; now apply (clash_spec k p [])|].
  rewrite (resume_line (write_indent 0 ++ write_word k ++ 32%N :: write_word p) _ (mkP ([], pempty) [] false MKey) _ ltac:(apply clean_app; [apply clean_indent|]; apply clean_app; [apply clean_word|]; change (32%N :: write_word p) with ([32%N] ++ write_word p); apply clean_app; [apply clean_one; discriminate | apply clean_word]) L1).
  rewrite (resume_line (write_indent 0 ++ write_word q) _ _ _ ltac:(apply clean_app; [apply clean_indent | apply clean_word]) (line_key 0 q [] _ [] true HQ)). reflexivity.
Qed.
Example info_continuation_ex : spread (str "key") (str "a ", 0, str "; c") [(str "b", 1, [])] (str "c") (str "; d") =
  str "key ""a ""\; c" ++ [10%N] ++ str "    ""b""    \    " ++ [10%N] ++ str """c""; d" ++ [10%N] /\ comment (str "; c") /\ comment [].
Proof. split; [reflexivity|]. split; (split; [intros x I; cbn in I; repeat destruct I as [<-|I]; try (split; discriminate); contradiction|]); [right; eexists; reflexivity | now left]. Qed.
