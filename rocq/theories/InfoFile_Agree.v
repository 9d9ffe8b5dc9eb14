(** The INFO reader of PTree_Model.v (used for inline strings, which contain no quotes) agrees with the one of
    InfoFile_Model.v on every text without quotes. *)
From Verif Require Import Bytes Strings_Model PTree_Model InfoFile_Model InfoFile_Props.
Open Scope nat_scope.

(** What follows the part of a line that is read: the rest of the tokens is [k]. *)
Definition ends_line (tail : bytes) (k : list token) : Prop := forall s, tokens s tail = flush s ++ TEol :: k.
Definition inline (text : bytes) : Prop := forall c, In c text -> c <> 0%N /\ c <> 10%N /\ c <> 34%N.
Lemma inline_cons c r : inline (c :: r) -> c <> 0%N /\ c <> 10%N /\ c <> 34%N /\ inline r.
Proof. intros H. destruct (H c (or_introl eq_refl)) as (A & B & C). split; [exact A|]. split; [exact B|]. split; [exact C|]. intros d I. apply H. now right. Qed.
Lemma tok_skip text tail k : inline text -> ends_line tail k -> tokens Skip (text ++ tail) = TEol :: k.
Proof.
  intros H E. induction text as [|c r IH]; [exact (E Skip)|]. apply inline_cons in H as (A & B & C & H). cbn [app tokens].
  rewrite (proj2 (N.eqb_neq c NL)) by auto. auto.
Qed.
Lemma tok_span text tail k : inline text -> ends_line tail k -> forall acc w r, span_word text = (w, r) ->
  tokens (InWord acc) (text ++ tail) = TWord (rev acc ++ w) :: tokens Mid (r ++ tail).
Proof.
  intros H E. induction text as [|c text IH]; intros acc w r S; cbn [span_word] in S.
  - injection S as <- <-. cbn [app]. rewrite !E. cbn [flush app]. now rewrite app_nil_r.
  - apply inline_cons in H as (A & B & C & H). destruct (is_space c || N.eqb c 59) eqn:SP.
    + injection S as <- <-. cbn [app tokens]. rewrite (proj2 (N.eqb_neq c NL)) by auto. rewrite app_nil_r. destruct (is_space c) eqn:X; cbn [orb] in SP; auto.
      rewrite SP. reflexivity.
    + destruct (span_word text) as [w' r'] eqn:W. injection S as <- <-. apply Bool.orb_false_iff in SP as [SP1 SP2].
      cbn [app tokens]. rewrite (proj2 (N.eqb_neq c NL)) by auto. rewrite SP1, SP2, (proj2 (N.eqb_neq c 0)) by auto. cbn [orb].
      rewrite (IH H (c :: acc) w' r') by auto. cbn [rev]. rewrite <- app_assoc. reflexivity.
Qed.
Lemma span_rest text w r : span_word text = (w, r) -> exists w0, text = w0 ++ r /\ w0 = w.
Proof.
  revert w r. induction text as [|c text IH]; cbn; intros w r H; [injection H as <- <-; exists []; auto|].
  destruct (is_space c || N.eqb c 59); [injection H as <- <-; exists []; auto|]. destruct (span_word text) as [w' r']. injection H as <- <-.
  destruct (IH w' r' eq_refl) as (w0 & -> & ->). exists (c :: w'). auto.
Qed.
Lemma skip_inline text : inline text -> inline (skip_ws text) /\ length (skip_ws text) <= length text.
Proof.
  induction text as [|c r IH]; intros H; [auto|]. cbn. destruct (is_space c); [|split; auto]. apply inline_cons in H as (_ & _ & _ & H). destruct (IH H). split; [auto|cbn; lia].
Qed.
Lemma tok_mid_skip text tail k : inline text -> ends_line tail k -> tokens Mid (text ++ tail) = tokens Mid (skip_ws text ++ tail).
Proof.
  intros H E. induction text as [|c r IH]; auto. apply inline_cons in H as (A & B & C & H). cbn [skip_ws]. destruct (is_space c) eqn:S; auto.
  cbn [app tokens]. rewrite (proj2 (N.eqb_neq c NL)), S by auto. auto.
Qed.
Definition data_of (m : mode) : bool := match m with MData => true | _ => false end.
(** running the tokens of a line and reading the line *)
Definition agree (o : option ptree) (p : pres) (k : list token) : Prop :=
  match p with
  | Good s' => md s' = MKey /\ o = run_info (top s') (stk s') (has_last s') false k
  | Err => o = None
  | Incl => False
  end.
Lemma rest_agrees fuel : forall text s tail k, length text < fuel -> inline text -> ends_line tail k -> md s <> MCont -> (md s = MData -> has_last s = true) ->
  agree (run_info (top s) (stk s) (has_last s) (data_of (md s)) (tokens Mid (text ++ tail))) (read_rest fuel text s) k.
Proof.
  induction fuel as [|f IH]; intros text s tail k L H E M MH; [lia|]. cbn [read_rest].
  destruct (skip_inline text H) as [HS LS]. rewrite (tok_mid_skip text tail k) by auto. remember (skip_ws text) as u eqn:U.
  assert (SH : match u with c :: _ => is_space c = false | [] => True end).
  { subst u. clear. induction text as [|c r IH]; cbn; auto. destruct (is_space c) eqn:S; auto. }
  assert (EOL : agree (run_info (top s) (stk s) (has_last s) (data_of (md s)) (TEol :: k))
                 (Good (mkP (top s) (stk s) (has_last s) (match md s with MData => MKey | m => m end))) k).
  { cbn. split; auto. destruct (md s); auto; congruence. }
  destruct u as [|c r]; [cbn [app]; rewrite E; exact EOL|]. apply inline_cons in HS as (A & B & C & HS). cbn in LS.
  assert (TS : tokens Mid ((c :: r) ++ tail) = if N.eqb c 59 then tokens Skip (r ++ tail) else if N.eqb c LBRACE then TOpen :: tokens Mid (r ++ tail)
             else if N.eqb c RBRACE then TClose :: tokens Mid (r ++ tail) else tokens (InWord [c]) (r ++ tail)).
  { cbn [app tokens]. rewrite (proj2 (N.eqb_neq c NL)), SH, (proj2 (N.eqb_neq c 0)) by auto. rewrite Bool.orb_false_r, Bool.andb_false_r. reflexivity. }
  rewrite TS. clear TS. destruct (N.eqb c 59) eqn:C59; [rewrite (tok_skip r tail k) by auto; exact EOL|].
  assert (WORD : N.eqb c LBRACE = false -> N.eqb c RBRACE = false -> forall w r', span_word (c :: r) = (w, r') ->
            tokens (InWord [c]) (r ++ tail) = TWord w :: tokens Mid (r' ++ tail) /\ inline r' /\ length r' < f).
  { intros X Y w r' S. cbn [span_word] in S. rewrite SH, C59 in S. cbn [orb] in S. destruct (span_word r) as [w1 r1] eqn:W. injection S as <- <-.
    rewrite (tok_span r tail k HS E [c] w1 r1 W). destruct (span_rest r w1 r1 W) as (w0 & -> & _). split; [reflexivity|]. split.
    - intros d I. apply HS. apply in_or_app. now right.
    - rewrite app_length in LS. lia. }
  assert (POP : agree (run_info (top s) (stk s) (has_last s) (data_of (md s)) (TClose :: tokens Mid (r ++ tail)))
                  (match pop_node s with Good s' => read_rest f r s' | e => e end) k).
  { unfold pop_node. cbn [run_info]. destruct (stk s) as [|[k0 t0] sk]; [reflexivity|].
    apply (IH r (mkP (k0, add_kid t0 (fst (top s)) (snd (top s))) sk false MKey) tail k); auto; [lia | discriminate | discriminate]. }
  assert (PUSH : agree (if true then match split_last (pkids (snd (top s))) with
                             | Some (ks, x) => run_info x ((fst (top s), Node (pdata (snd (top s))) ks) :: stk s) false false (tokens Mid (r ++ tail)) | None => None end else None)
                  (match push_last s with Good s' => read_rest f r s' | e => e end) k).
  { unfold push_last. destruct (split_last (pkids (snd (top s)))) as [[ks x]|]; [|reflexivity].
    apply (IH r (mkP x ((fst (top s), Node (pdata (snd (top s))) ks) :: stk s) false MKey) tail k); auto; [lia | discriminate | discriminate]. }
  assert (QN : N.eqb c QUOTE = false) by now apply N.eqb_neq.
  destruct (md s) eqn:MD; [| |congruence].
  - destruct (N.eqb c LBRACE) eqn:LB.
    + cbn [run_info]. destruct (has_last s); [exact PUSH | reflexivity].
    + destruct (N.eqb c RBRACE) eqn:RB; [exact POP|].
      unfold read_key. rewrite QN. unfold read_word. destruct (span_word (c :: r)) as [w r'] eqn:W.
      destruct (WORD eq_refl eq_refl w r' eq_refl) as (TW & HR & LR). rewrite TW. cbn [run_info]. destruct (expand_escapes w) as [w'|]; [|reflexivity].
      cbn [data_of]. apply (IH r' (new_kid s w') tail k); auto. discriminate.
  - destruct (N.eqb c LBRACE) eqn:LB.
    + cbn [run_info]. rewrite (MH eq_refl). exact PUSH.
    + destruct (N.eqb c RBRACE) eqn:RB; [exact POP|].
      unfold read_data. rewrite QN. unfold read_word. destruct (span_word (c :: r)) as [w r'] eqn:W.
      destruct (WORD eq_refl eq_refl w r' eq_refl) as (TW & HR & LR). rewrite TW. cbn [run_info]. destruct (expand_escapes w) as [w'|]; [|reflexivity].
      cbn [data_of]. unfold upd_last. destruct (split_last (pkids (snd (top s)))) as [[ks [k0 c0]]|]; [|reflexivity].
      apply (IH r' (mkP (fst (top s), Node (pdata (snd (top s))) (ks ++ [(k0, Node w' (pkids c0))])) (stk s) (has_last s) MKey) tail k); auto. discriminate.
Qed.

Lemma line_agrees line rest k s :
  (forall c, In c line -> c <> 10%N /\ c <> 34%N) -> ends_line rest k -> md s = MKey ->
  agree (run_info (top s) (stk s) (has_last s) false (tokens Bol (line ++ rest))) (read_line line s) k.
Proof.
  intros H E M.
  assert (C : exists tail, line ++ rest = c_str line ++ tail /\ ends_line tail k /\ inline (c_str line)).
  { clear M s. induction line as [|c r IH]; [exists rest; split; [reflexivity|]; split; [exact E | intros d []]|].
    cbn [c_str]. destruct (N.eqb_spec c 0) as [-> |NZ].
    - exists ((0%N :: r) ++ rest). split; [reflexivity|]. split; [|intros d []].
      assert (SK : tokens Skip (r ++ rest) = TEol :: k).
      { clear IH. induction r as [|d r IH]; [exact (E Skip)|]. cbn [app tokens]. rewrite (proj2 (N.eqb_neq d NL)).
        - apply IH. intros x [X|I]; apply H; [now left | now right; right].
        - apply H. now right; left. }
      intros st. destruct st; cbn; rewrite SK; reflexivity.
    - destruct IH as (tail & E1 & E2 & E3); [intros d I; apply H; now right|]. exists tail. split; [cbn [app]; now rewrite E1|]. split; auto.
      intros d [<- |I]; auto. destruct (H c (or_introl eq_refl)). auto. }
  destruct C as (tail & E1 & E2 & E3). rewrite E1. unfold read_line. set (text := c_str line) in *. clearbody text.
  assert (TB : tokens Bol (text ++ tail) = match skip_ws text with c :: _ => if N.eqb c 35 then [TBad] else tokens Mid (text ++ tail) | [] => tokens Mid (text ++ tail) end).
  { clear E E1. induction text as [|c r IH]; [cbn [app skip_ws]; now rewrite !E2|]. apply inline_cons in E3 as (A & B & C & E3). cbn [app tokens skip_ws].
    rewrite (proj2 (N.eqb_neq c NL)) by auto. destruct (is_space c) eqn:SP; [exact (IH E3)|].
    destruct (N.eqb c 35) eqn:N35; [apply N.eqb_eq in N35; subst c; reflexivity|]. cbn [andb]. reflexivity. }
  rewrite TB. clear TB.
  assert (MAIN : agree (run_info (top s) (stk s) (has_last s) false (tokens Mid (text ++ tail))) (read_rest (S (length text)) text s) k).
  { pose proof (rest_agrees (S (length text)) text s tail k ltac:(lia) E3 E2) as R. rewrite M in R. apply R; discriminate. }
  destruct (skip_ws text) as [|c r] eqn:SK; [exact MAIN|]. destruct (N.eqb_spec c 35) as [-> |N35]; [|exact MAIN].
  cbn [run_info]. destruct (read_word (skip_ws r)) as [[w r']|] eqn:W; [|reflexivity]. destruct (bytes_eqb w (str "include")); [|reflexivity].
  destruct (read_string false (skip_ws r')) as [p|] eqn:RS; [|reflexivity]. exfalso.
  assert (I1 : inline r). { destruct (skip_inline text E3) as [I1 _]. rewrite SK in I1. now apply inline_cons in I1 as (_ & _ & _ & I1). }
  assert (I2 : inline r').
  { unfold read_word in W. destruct (span_word (skip_ws r)) as [w0 r0] eqn:SW. destruct (expand_escapes w0); [|discriminate]. injection W as _ ->.
    destruct (span_rest _ _ _ SW) as (w1 & Q & _). destruct (skip_inline r I1) as [I2 _]. rewrite Q in I2. intros d I. apply I2, in_or_app. now right. }
  destruct (skip_inline r' I2) as [I3 _]. unfold read_string in RS. destruct (skip_ws r') as [|q l]; [discriminate|].
  destruct (I3 q (or_introl eq_refl)) as (_ & _ & NQ). rewrite (proj2 (N.eqb_neq q QUOTE)) in RS by auto. discriminate.
Qed.
Lemma text_agrees n : forall text s, length text < n -> ~ In 34%N text -> md s = MKey ->
  run_info (top s) (stk s) (has_last s) false (tokens Bol text) =
  match read_lines (lines text) s with Good s' => match stk s' with [] => Some (snd (top s')) | _ => None end | _ => None end
  /\ read_lines (lines text) s <> Incl.
Proof.
  induction n as [|n IH]; intros text s L Q M; [lia|].
  assert (C : (~ In 10%N text) \/ exists line text', text = line ++ 10%N :: text' /\ ~ In 10%N line).
  { clear. induction text as [|c r [IH|(l & t & -> & IH)]]; [left; auto| |].
    - destruct (N.eqb_spec c 10) as [-> |X]; [right; exists [], r; auto|]. left. intros [ ->|I]; auto.
    - destruct (N.eqb_spec c 10) as [-> |X]; [right; exists [], (l ++ 10%N :: t); auto|]. right. exists (c :: l), t. split; auto. intros [ ->|I]; auto. }
  destruct C as [NN|(line & text' & -> & NN)].
  - assert (LN : lines text = [text]). { clear - NN. induction text as [|c r IH]; auto. cbn [lines]. rewrite (proj2 (N.eqb_neq c NL)); [|intros ->; apply NN; now left]. rewrite IH; auto. intros I; apply NN; now right. }
    rewrite LN. cbn [read_lines].
    assert (A : agree (run_info (top s) (stk s) (has_last s) false (tokens Bol (text ++ []))) (read_line text s) []).
    { apply line_agrees; auto. - intros c I. split; intros ->; auto. - intros st. reflexivity. }
    rewrite app_nil_r in A. destruct (read_line text s) as [s'| |]; [|split; [exact A | discriminate]|destruct A]. destruct A as [_ A]. rewrite A. split; [reflexivity | discriminate].
  - assert (LN : lines (line ++ 10%N :: text') = line :: lines text').
    { clear - NN. induction line as [|c r IH]; auto. cbn [app lines]. rewrite (proj2 (N.eqb_neq c NL)); [|intros ->; apply NN; now left]. rewrite IH; auto. intros I; apply NN; now right. }
    rewrite LN. cbn [read_lines].
    assert (A : agree (run_info (top s) (stk s) (has_last s) false (tokens Bol (line ++ 10%N :: text'))) (read_line line s) (tokens Bol text')).
    { apply line_agrees; auto. - intros c I. split; intros ->; auto. apply Q, in_or_app. now left. - intros st. reflexivity. }
    destruct (read_line line s) as [s'| |]; [|split; [exact A | discriminate]|destruct A]. destruct A as [M' A]. rewrite A. apply IH; auto.
    + rewrite app_length in L. cbn in L. lia.
    + intros I. apply Q, in_or_app. right. now right.
Qed.
(** On a text without quotes the simple reader used by loadString is the full reader of INFO files. *)
Theorem info_readers_agree text : ~ In 34%N text ->
  read_info_file text = match read_info text with Some t => InfoTree t | None => InfoError end.
Proof.
  intros Q. unfold read_info, read_info_file.
  pose proof (text_agrees (S (length text)) text (mkP ([], pempty) [] false MKey) ltac:(lia) Q eq_refl) as [A B]. cbn [top stk has_last] in A. rewrite A.
  destruct (read_lines _ _) as [s'| |]; [|reflexivity|congruence]. destruct (stk s'); auto.
Qed.
Lemma close_no_quote n : ~ In 34%N (close_braces n).
Proof. induction n as [|n IH]; cbn; intros I; [auto|]. destruct I as [D|[D|I]]; [discriminate D | discriminate D | auto]. Qed.
Lemma inline_no_quote s : forall cnt st text, ~ In 34%N s -> inline_to_info s cnt st = Some text -> ~ In 34%N text.
Proof.
  assert (AP : forall a b : bytes, ~ In 34%N a -> ~ In 34%N b -> ~ In 34%N (a ++ b)) by (intros a b A B I; apply in_app_or in I as [I|I]; auto).
  induction s as [|c r IH]; intros cnt st text Q E; cbn [inline_to_info] in E.
  - injection E as <-. apply AP; [apply close_no_quote|]. intros [D|[]]; discriminate D.
  - assert (QR : ~ In 34%N r) by (intros I; apply Q; now right).
    assert (OM : forall (p : bytes -> bytes) cnt' st', (forall x, ~ In 34%N x -> ~ In 34%N (p x)) ->
                 option_map p (inline_to_info r cnt' st') = Some text -> ~ In 34%N text).
    { intros p cnt' st' P T. destruct (inline_to_info r cnt' st') as [x|] eqn:X; [|discriminate T]. injection T as <-. apply P. exact (IH _ _ _ QR X). }
    destruct (N.eqb c EQUALS); [refine (OM _ _ _ _ E); intros x X [D|I]; [discriminate D | auto]|].
    destruct (N.eqb c SLASH); [refine (OM _ _ _ _ E); intros x X [D|[D|[D|I]]]; [discriminate D | discriminate D | discriminate D | auto]|].
    destruct (N.eqb c LBRACE); [refine (OM _ _ _ _ E); intros x X [D|[D|[D|I]]]; [discriminate D | discriminate D | discriminate D | auto]|].
    destruct (N.eqb c RBRACE).
    { destruct st as [|n st]; [discriminate|]. refine (OM _ _ _ _ E). intros x X. apply AP; [apply close_no_quote|]. intros [D|[D|I]]; [discriminate D | discriminate D | auto]. }
    destruct (N.eqb c COMMA); [refine (OM _ _ _ _ E); intros x X; apply AP; [apply close_no_quote|]; intros [D|I]; [discriminate D | auto]|].
    refine (OM _ _ _ _ E). intros x X [D|I]; [|auto]. apply Q. now left.
Qed.
(** loadString is: translate the inline notation to INFO (or fail), then do exactly what loadInfo does with a file of that
    content. *)
Theorem loadString_is_loadInfo t s text : ~ In 34%N s -> inline_to_info s 0 [] = Some text ->
  loadInfo t text = Some (loadString t s).
Proof.
  intros Q E. unfold loadString, loadInfo. rewrite E.
  replace (existsb (N.eqb QUOTE) s) with false.
  - rewrite (info_readers_agree text) by (now apply (inline_no_quote s 0 [])). destruct (read_info text); auto.
  - symmetry. apply Bool.not_true_is_false. intros X. apply existsb_exists in X as (c & I & C). apply N.eqb_eq in C. subst c. auto.
Qed.
Example loadString_is_loadInfo_ex :
  exists text, inline_to_info (str "a/b=1\\n,c{d=x;y}") 0 [] = Some text /\
    loadInfo pempty text = Some (loadString pempty (str "a/b=1\\n,c{d=x;y}")).
Proof. eexists. split; [vm_compute; reflexivity|]. vm_compute. reflexivity. Qed.

(** The escapes of a word in a loaded text, as documented for INFO files: a backslash and one of these characters. *)
Definition escape_codes : list (bytes * N) :=
  [(str "0", 0); (str "a", 7); (str "b", 8); (str "f", 12); (str "n", 10); (str "r", 13); (str "t", 9); (str "v", 11);
   (str "'", 39); (str "\", 92); ([34], 34)]%N.
Inductive unescaped : bytes -> bytes -> Prop :=
| Unesc_end : unescaped [] []
| Unesc_plain c r v : [c] <> str "\" -> unescaped r v -> unescaped (c :: r) (c :: v)
| Unesc_code e x r v : In (e, x) escape_codes -> unescaped r v -> unescaped (str "\" ++ e ++ r) (x :: v).
Theorem escapes_read w v : expand_escapes w = Some v <-> unescaped w v.
Proof.
  split.
  - revert v. remember (length w) as n eqn:L. assert (LE : length w <= n) by lia. clear L. revert w LE.
    induction n as [|n IH]; intros w LE v H.
    + destruct w; [|cbn in LE; lia]. injection H as <-. constructor.
    + destruct w as [|c r]; [injection H as <-; constructor|]. cbn [expand_escapes] in H. cbn in LE. destruct (N.eqb_spec c 92) as [-> |NE].
      * destruct r as [|e r]; [discriminate|]. destruct (escape_char e) as [x|] eqn:X; [|discriminate].
        destruct (expand_escapes r) as [u|] eqn:U; [|discriminate]. injection H as <-. cbn in LE.
        refine (Unesc_code [e] x r u _ (IH r ltac:(lia) u U)). clear - X. unfold escape_codes, escape_char in *.
        repeat (destruct e as [|e]; try discriminate X; cbn in X);
        repeat (match type of X with context [match ?p with _ => _ end] => destruct p; try discriminate X end); injection X as <-; vm_compute; tauto.
      * destruct (expand_escapes r) as [u|] eqn:U; [|discriminate]. injection H as <-. apply Unesc_plain; [|apply IH; auto; lia].
        intros E. apply NE. injection E as E. exact E.
  - induction 1 as [|c r v NE _ IH|e x r v I _ IH]; [reflexivity| |].
    + cbn [expand_escapes]. destruct (N.eqb_spec c 92) as [-> |_]; [now destruct NE|]. now rewrite IH.
    + cbn in I. repeat (destruct I as [E|I]; [injection E as <- <-; cbn; rewrite IH; reflexivity|]). destruct I.
Qed.
Example escapes_read_ex : unescaped (str "a\tb\\") [97; 9; 98; 92]%N /\ (forall v, ~ unescaped (str "\q") v).
Proof. split; [|intros v U]; [apply escapes_read | apply escapes_read in U]; vm_compute in *; congruence. Qed.
