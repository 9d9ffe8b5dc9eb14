(** loadString: written form, the tree it denotes, and the proof. *)
From Verif Require Import PTree_Model PTree_Proofs Strings_Model.
Open Scope nat_scope.

(** ** Specification *)
(** An inline configuration is a list of items: path, optional value, optional block. *)
Inductive item :=
| Plain (path : list bytes) (value : option bytes)
| Block (path : list bytes) (value : option bytes) (body : list item).
(** Words: non-empty, no blanks, none of the characters comma slash equals braces double-quote semicolon hash backslash, and no NUL. *)
Definition word_char (c : N) : Prop :=
  is_space c = false /\ ~ In c [44; 47; 61; 123; 125; 34; 59; 35; 92; 0]%N.
Definition word (w : bytes) : Prop := w <> [] /\ Forall word_char w.
Definition good_head (p : list bytes) (v : option bytes) : Prop :=
  p <> [] /\ Forall word p /\ match v with Some w => word w | None => True end.
Fixpoint good (i : item) : Prop :=
  match i with
  | Plain p v => good_head p v
  | Block p v l => good_head p v /\ (fix all l := match l with [] => True | x :: r => good x /\ all r end) l
  end.
(** The text of an item: a/b=v{...} ; items are separated by ','. *)
Fixpoint path_text (p : list bytes) : bytes :=
  match p with [] => [] | [w] => w | w :: r => w ++ 47%N :: path_text r end.
Definition value_text (v : option bytes) : bytes := match v with Some w => 61%N :: w | None => [] end.
Fixpoint sep_by (sep : bytes) (l : list bytes) : bytes :=
  match l with [] => [] | [x] => x | x :: r => x ++ sep ++ sep_by sep r end.
Fixpoint render (i : item) : bytes :=
  match i with
  | Plain p v => path_text p ++ value_text v
  | Block p v l => path_text p ++ value_text v ++ [123%N] ++ sep_by [44%N] (map render l) ++ [125%N]
  end.
Definition render_all (l : list item) : bytes := sep_by [44%N] (map render l).
(** The child an item stands for: a chain of nodes ending in one with the value and the block's children. *)
Fixpoint chain (p : list bytes) (leaf : ptree) : list (bytes * ptree) :=
  match p with [] => [] | [w] => [(w, leaf)] | w :: r => [(w, Node [] (chain r leaf))] end.
Definition val (v : option bytes) : bytes := match v with Some w => w | None => [] end.
Fixpoint kids_of (i : item) : list (bytes * ptree) :=
  match i with
  | Plain p v => chain p (Node (val v) [])
  | Block p v l => chain p (Node (val v) (concat (map kids_of l)))
  end.
Definition tree_of (l : list item) : ptree := Node [] (concat (map kids_of l)).

(** ** Proof *)
Section Ind.
  Variable P : item -> Prop.
  Hypothesis HP : forall p v, P (Plain p v).
  Hypothesis HB : forall p v l, Forall P l -> P (Block p v l).
  Fixpoint item_ind' (i : item) : P i :=
    match i with
    | Plain p v => HP p v
    | Block p v l => HB p v l ((fix go l : Forall P l := match l with [] => Forall_nil _ | x :: r => Forall_cons x (item_ind' x) (go r) end) l)
    end.
End Ind.
Lemma good_block p v l : good (Block p v l) -> good_head p v /\ Forall good l.
Proof. simpl. intros [H A]. split; auto. induction l; constructor; tauto. Qed.

(** *** text emitted *)
Definition OPEN : bytes := [NL; LBRACE; NL].
Fixpoint e_path (p : list bytes) : bytes := match p with [] => [] | [w] => w | w :: r => w ++ OPEN ++ e_path r end.
Definition e_val (v : option bytes) : bytes := match v with Some w => 32%N :: w | None => [] end.
Definition ipath (i : item) := match i with Plain p _ | Block p _ _ => p end.
Fixpoint e_item (i : item) : bytes :=
  match i with
  | Plain p v => e_path p ++ e_val v
  | Block p v l => e_path p ++ e_val v ++ OPEN ++
                   sep_by [NL] (map (fun i => e_item i ++ close_braces (length (ipath i) - 1)) l) ++ [NL; RBRACE]
  end.
Definition e_closed (i : item) := e_item i ++ close_braces (length (ipath i) - 1).
Definition e_items (l : list item) := sep_by [NL] (map e_closed l).

Lemma word_char_special c : word_char c ->
  N.eqb c EQUALS = false /\ N.eqb c SLASH = false /\ N.eqb c LBRACE = false /\ N.eqb c RBRACE = false /\ N.eqb c COMMA = false
  /\ N.eqb c NL = false /\ N.eqb c 59 = false /\ N.eqb c 0 = false /\ N.eqb c 35 = false /\ N.eqb c 92 = false /\ N.eqb QUOTE c = false /\ is_space c = false.
Proof.
  intros [S I].
  assert (X : forall n, In n [44; 47; 61; 123; 125; 34; 59; 35; 92; 0]%N -> N.eqb c n = false).
  { intros n H. apply N.eqb_neq. intros ->. auto. }
  assert (Y : N.eqb c NL = false). { apply N.eqb_neq. intros ->. discriminate S. }
  rewrite (N.eqb_sym QUOTE c).
  repeat split; auto; apply X; simpl; tauto.
Qed.
Lemma inline_word w : Forall word_char w -> forall r cnt stk,
  inline_to_info (w ++ r) cnt stk = option_map (app w) (inline_to_info r cnt stk).
Proof.
  induction 1 as [|c w Hc Hw IH]; intros r cnt stk.
  - simpl. destruct (inline_to_info r cnt stk); auto.
  - destruct (word_char_special c Hc) as (E1 & E2 & E3 & E4 & E5 & _). cbn [app inline_to_info]. rewrite E1, E2, E3, E4, E5, IH.
    destruct (inline_to_info r cnt stk); auto.
Qed.
Lemma inline_path p : p <> [] -> Forall word p -> forall r cnt stk,
  inline_to_info (path_text p ++ r) cnt stk = option_map (app (e_path p)) (inline_to_info r (cnt + (length p - 1)) stk).
Proof.
  induction p as [|w p IH]; [congruence|]. intros _ H r cnt stk. inversion H as [|? ? Hw Hp]; subst.
  destruct p as [|w' p].
  - cbn [path_text e_path length Nat.sub]. rewrite Nat.add_0_r. apply inline_word, Hw.
  - change (path_text (w :: w' :: p)) with (w ++ SLASH :: path_text (w' :: p)). rewrite <- app_assoc, inline_word by apply Hw.
    cbn [app]. change (inline_to_info (SLASH :: path_text (w' :: p) ++ r) cnt stk)
      with (option_map (fun o => [NL; LBRACE; NL] ++ o) (inline_to_info (path_text (w' :: p) ++ r) (S cnt) stk)).
    rewrite IH by (auto; discriminate). cbn [length].
    replace (S cnt + (S (length p) - 1)) with (cnt + (S (S (length p)) - 1)) by lia.
    destruct (inline_to_info r _ stk); cbn [option_map]; auto. f_equal.
    change (e_path (w :: w' :: p)) with (w ++ OPEN ++ e_path (w' :: p)). rewrite <- !app_assoc. auto.
Qed.
Lemma inline_value v : match v with Some w => word w | None => True end -> forall r cnt stk,
  inline_to_info (value_text v ++ r) cnt stk = option_map (app (e_val v)) (inline_to_info r cnt stk).
Proof.
  destruct v as [w|]; intros H r cnt stk.
  - cbn [value_text e_val app]. change (inline_to_info (61%N :: w ++ r) cnt stk) with (option_map (fun o => 32%N :: o) (inline_to_info (w ++ r) cnt stk)).
    rewrite inline_word by apply H. destruct (inline_to_info r cnt stk); auto.
  - cbn. destruct (inline_to_info r cnt stk); auto.
Qed.
Lemma inline_items l : Forall (fun i => forall r stk, inline_to_info (render i ++ r) 0 stk =
      option_map (app (e_item i)) (inline_to_info r (length (ipath i) - 1) stk)) l ->
  forall stk,
    inline_to_info (render_all l) 0 stk = Some (e_items l ++ [NL]) /\
    (forall r cnt, inline_to_info (render_all l ++ RBRACE :: r) 0 (cnt :: stk) =
       option_map (fun o => e_items l ++ [NL; RBRACE] ++ o) (inline_to_info r cnt stk)).
Proof.
  unfold render_all, e_items. induction 1 as [|i l Hi Hl IH]; intros stk.
  - split; auto.
  - destruct l as [|i' l].
    + cbn [map sep_by]. split.
      * rewrite <- (app_nil_r (render i)), Hi. cbn [inline_to_info option_map]. f_equal. unfold e_closed. rewrite <- app_assoc. auto.
      * intros r cnt. rewrite Hi. cbn [inline_to_info]. change (N.eqb RBRACE EQUALS) with false. change (N.eqb RBRACE SLASH) with false.
        change (N.eqb RBRACE LBRACE) with false. rewrite N.eqb_refl. destruct (inline_to_info r cnt stk); cbn [option_map]; auto.
        f_equal. unfold e_closed. rewrite <- !app_assoc. auto.
    + set (R := sep_by [44%N] (map render (i' :: l))) in *. set (E := sep_by [NL] (map e_closed (i' :: l))) in *.
      change (sep_by [44%N] (map render (i :: i' :: l))) with (render i ++ COMMA :: R).
      change (sep_by [NL] (map e_closed (i :: i' :: l))) with (e_closed i ++ [NL] ++ E).
      assert (C : forall x stk', inline_to_info (COMMA :: x) (length (ipath i) - 1) stk' =
                  option_map (fun o => close_braces (length (ipath i) - 1) ++ [NL] ++ o) (inline_to_info x 0 stk')) by reflexivity.
      split.
      * rewrite Hi, C. destruct (IH stk) as [-> _]. cbn [option_map]. f_equal. unfold e_closed. rewrite <- !app_assoc. auto.
      * intros r cnt. rewrite <- app_assoc, Hi. change ((COMMA :: R) ++ RBRACE :: r) with (COMMA :: (R ++ RBRACE :: r)).
        rewrite C. destruct (IH stk) as [_ ->]. destruct (inline_to_info r cnt stk); cbn [option_map]; auto. f_equal. unfold e_closed. rewrite <- !app_assoc. auto.
Qed.
Lemma inline_item i : good i -> forall r stk,
  inline_to_info (render i ++ r) 0 stk = option_map (app (e_item i)) (inline_to_info r (length (ipath i) - 1) stk).
Proof.
  induction i as [p v|p v l IH] using item_ind'; intros G r stk.
  - destruct G as (P1 & P2 & P3). cbn [render e_item ipath]. rewrite <- app_assoc, inline_path, inline_value by auto.
    simpl (0 + _). destruct (inline_to_info r (length p - 1) stk); cbn [option_map]; auto. rewrite <- app_assoc. auto.
  - apply good_block in G as [(P1 & P2 & P3) G]. cbn [render e_item ipath]. rewrite <- !app_assoc, inline_path, inline_value by auto.
    simpl (0 + _). cbn [app].
    change (inline_to_info (123%N :: sep_by [44%N] (map render l) ++ 125%N :: r) (length p - 1) stk)
      with (option_map (fun o => OPEN ++ o) (inline_to_info (render_all l ++ RBRACE :: r) 0 ((length p - 1) :: stk))).
    destruct (inline_items l) with (stk := stk) as [_ X].
    { rewrite Forall_forall in *. intros i Hi. apply IH; auto. }
    rewrite X. destruct (inline_to_info r (length p - 1) stk); cbn [option_map]; auto. f_equal. rewrite <- !app_assoc. auto.
Qed.
Lemma inline_all l : Forall good l -> inline_to_info (render_all l) 0 [] = Some (e_items l ++ [NL]).
Proof. intros G. apply inline_items. rewrite Forall_forall in *. intros i Hi. apply inline_item. auto. Qed.

Lemma sep_no_quote ls : Forall (fun x => existsb (N.eqb QUOTE) x = false) ls -> existsb (N.eqb QUOTE) (sep_by [44%N] ls) = false.
Proof.
  induction 1 as [|x l Hx Hl IH]; auto. destruct l as [|y l]; auto.
  change (sep_by [44%N] (x :: y :: l)) with (x ++ [44%N] ++ sep_by [44%N] (y :: l)). rewrite !existsb_app, Hx, IH. auto.
Qed.
Lemma no_quote i : good i -> existsb (N.eqb QUOTE) (render i) = false.
Proof.
  assert (W : forall w, Forall word_char w -> existsb (N.eqb QUOTE) w = false).
  { induction 1 as [|c w Hc _ IH]; auto. cbn [existsb]. rewrite IH. destruct (word_char_special c Hc) as (_ & _ & _ & _ & _ & _ & _ & _ & _ & _ & -> & _). auto. }
  assert (PT : forall p, Forall word p -> existsb (N.eqb QUOTE) (path_text p) = false).
  { induction p as [|w p IHp]; intros H; auto. inversion H as [|? ? Hw Hp]; subst. destruct p as [|w' p]; [apply W, Hw|].
    change (path_text (w :: w' :: p)) with (w ++ 47%N :: path_text (w' :: p)). rewrite existsb_app. cbn [existsb]. rewrite W by apply Hw. rewrite IHp by auto. auto. }
  assert (VT : forall v, match v with Some w => word w | None => True end -> existsb (N.eqb QUOTE) (value_text v) = false).
  { intros [w|] H; auto. cbn [value_text existsb]. rewrite W by apply H. auto. }
  induction i as [p v|p v l IH] using item_ind'; intros G.
  - destruct G as (P1 & P2 & P3). cbn [render]. rewrite existsb_app, PT, VT by auto. auto.
  - apply good_block in G as [(P1 & P2 & P3) G]. cbn [render]. rewrite !existsb_app, PT, VT by auto. cbn [existsb orb].
    change (N.eqb QUOTE 123) with false. change (N.eqb QUOTE 125) with false. cbn [orb]. rewrite orb_false_r.
    apply sep_no_quote. apply Forall_map. rewrite Forall_forall in *. intros i Hi. apply IH; auto.
Qed.
Lemma no_quote_all l : Forall good l -> existsb (N.eqb QUOTE) (render_all l) = false.
Proof. intros G. apply sep_no_quote, Forall_map. rewrite Forall_forall in *. intros i Hi. apply no_quote; auto. Qed.

(** *** tokens of the text *)
Definition start (st : tstate) := st = Bol \/ st = Mid.
Definition t_val (v : option bytes) := match v with Some w => [TWord w] | None => [] end.
Fixpoint t_path (p : list bytes) : list token :=
  match p with [] => [] | [w] => [TWord w] | w :: r => [TWord w; TEol; TOpen; TEol] ++ t_path r end.
Fixpoint t_close (n : nat) : list token := match n with O => [] | S n => [TEol; TClose] ++ t_close n end.
Fixpoint t_sep (l : list (list token)) : list token := match l with [] => [] | [x] => x | x :: r => x ++ [TEol] ++ t_sep r end.
Fixpoint t_item (i : item) : list token :=
  match i with
  | Plain p v => t_path p ++ t_val v
  | Block p v l => t_path p ++ t_val v ++ [TEol; TOpen; TEol] ++
                   t_sep (map (fun i => t_item i ++ t_close (length (ipath i) - 1)) l) ++ [TEol; TClose]
  end.
Definition t_closed (i : item) := t_item i ++ t_close (length (ipath i) - 1).
Lemma tok_inword w : Forall word_char w -> forall acc r, tokens (InWord acc) (w ++ r) = tokens (InWord (rev w ++ acc)) r.
Proof.
  induction 1 as [|c w Hc Hw IH]; intros acc r; auto.
  destruct (word_char_special c Hc) as (_ & _ & _ & _ & _ & E6 & E7 & E8 & _ & _ & _ & E12). cbn [app tokens].
  rewrite E6, E12, E7, E8. cbn [orb]. rewrite IH. cbn [rev]. rewrite <- app_assoc. auto.
Qed.
Lemma tok_word st w : start st -> word w -> forall r, tokens st (w ++ r) = tokens (InWord (rev w)) r.
Proof.
  intros Hst [N H] r. destruct w as [|c w]; [congruence|]. inversion H as [|? ? Hc Hw]; subst.
  destruct (word_char_special c Hc) as (_ & _ & E3 & E4 & _ & E6 & E7 & E8 & E9 & _ & _ & E12). cbn [app tokens].
  rewrite E6. destruct Hst as [-> | ->]; rewrite E12, E7, E8, E9, E3, E4; cbn [orb andb]; rewrite tok_inword by auto; auto.
Qed.
Lemma tok_nl st r : tokens st (NL :: r) = flush st ++ TEol :: tokens Bol r.
Proof. reflexivity. Qed.
Lemma tok_open st r : tokens st (OPEN ++ r) = flush st ++ [TEol; TOpen; TEol] ++ tokens Bol r.
Proof. reflexivity. Qed.
Lemma tok_close_braces n : forall st r, tokens st (close_braces n ++ NL :: r) = flush st ++ t_close n ++ TEol :: tokens Bol r.
Proof.
  induction n as [|n IH]; intros st r; auto.
  change (close_braces (S n) ++ NL :: r) with (NL :: RBRACE :: (close_braces n ++ NL :: r)). rewrite tok_nl.
  change (tokens Bol (RBRACE :: (close_braces n ++ NL :: r))) with (TClose :: tokens Mid (close_braces n ++ NL :: r)).
  rewrite IH. reflexivity.
Qed.
Lemma tok_path p : p <> [] -> Forall word p -> forall st r, start st ->
  exists acc, tokens st (e_path p ++ r) = removelast (t_path p) ++ tokens (InWord acc) r /\ t_path p = removelast (t_path p) ++ [TWord (rev acc)].
Proof.
  induction p as [|w p IH]; [congruence|]. intros _ H st r S. inversion H as [|? ? Hw Hp]; subst. destruct p as [|w' p].
  - exists (rev w). cbn [e_path t_path removelast app]. rewrite tok_word, rev_involutive by auto. auto.
  - destruct (IH ltac:(discriminate) Hp Bol r (or_introl eq_refl)) as (acc & E1 & E2). exists acc.
    assert (NE : t_path (w' :: p) <> []) by (destruct p; discriminate).
    assert (RL : removelast (t_path (w :: w' :: p)) = [TWord w; TEol; TOpen; TEol] ++ removelast (t_path (w' :: p))).
    { change (t_path (w :: w' :: p)) with ([TWord w; TEol; TOpen; TEol] ++ t_path (w' :: p)). apply removelast_app. auto. }
    rewrite RL. split.
    + change (e_path (w :: w' :: p)) with (w ++ OPEN ++ e_path (w' :: p)). rewrite <- !app_assoc, tok_word, tok_open, E1 by auto.
      cbn [flush]. rewrite rev_involutive. reflexivity.
    + change (t_path (w :: w' :: p)) with ([TWord w; TEol; TOpen; TEol] ++ t_path (w' :: p)). rewrite E2 at 1. rewrite app_assoc. auto.
Qed.
(** path and value, up to the pending word *)
Lemma tok_head p v : good_head p v -> forall st r, start st ->
  exists pre st', tokens st (e_path p ++ e_val v ++ r) = pre ++ tokens st' r /\ t_path p ++ t_val v = pre ++ flush st'.
Proof.
  intros (P1 & P2 & P3) st r S. destruct (tok_path p P1 P2 st (e_val v ++ r) S) as (acc & E1 & E2).
  destruct v as [w|].
  - exists (t_path p), (InWord (rev w)). cbn [e_val app] in *. rewrite E1. split.
    + change (tokens (InWord acc) (32%N :: w ++ r)) with (TWord (rev acc) :: tokens Mid (w ++ r)).
      rewrite tok_word by (auto; right; auto). rewrite E2 at 2. rewrite <- app_assoc. auto.
    + cbn. rewrite rev_involutive. auto.
  - exists (removelast (t_path p)), (InWord acc). cbn [e_val app] in *. rewrite E1. split; auto. cbn [t_val flush]. rewrite app_nil_r. exact E2.
Qed.
Lemma tok_items l : Forall (fun i => forall st r, start st -> tokens st (e_item i ++ NL :: r) = t_item i ++ TEol :: tokens Bol r /\
     (forall n, tokens st (e_item i ++ close_braces n ++ NL :: r) = t_item i ++ t_close n ++ TEol :: tokens Bol r)) l ->
  forall st r, start st -> tokens st (e_items l ++ NL :: r) = t_sep (map t_closed l) ++ TEol :: tokens Bol r.
Proof.
  unfold e_items. induction 1 as [|i l Hi Hl IH]; intros st r S; [destruct S as [-> | ->]; reflexivity|].
  destruct l as [|i' l].
  - cbn [map sep_by t_sep]. unfold e_closed, t_closed. rewrite <- !app_assoc. apply Hi; auto.
  - change (sep_by [NL] (map e_closed (i :: i' :: l))) with (e_closed i ++ NL :: sep_by [NL] (map e_closed (i' :: l))).
    change (t_sep (map t_closed (i :: i' :: l))) with (t_closed i ++ TEol :: t_sep (map t_closed (i' :: l))).
    unfold e_closed at 1, t_closed at 1. rewrite <- !app_assoc. destruct (Hi st (sep_by [NL] (map e_closed (i' :: l)) ++ NL :: r) S) as [_ X].
    cbn [app]. rewrite X. rewrite IH by (left; auto). auto.
Qed.
Lemma tok_item i : good i -> forall st r, start st ->
  tokens st (e_item i ++ NL :: r) = t_item i ++ TEol :: tokens Bol r /\
  (forall n, tokens st (e_item i ++ close_braces n ++ NL :: r) = t_item i ++ t_close n ++ TEol :: tokens Bol r).
Proof.
  intros G st r S.
  assert (Q : forall n, tokens st (e_item i ++ close_braces n ++ NL :: r) = t_item i ++ t_close n ++ TEol :: tokens Bol r);
    [|split; [exact (Q 0)|exact Q]].
  intros n. revert G st r S n. induction i as [p v|p v l IH] using item_ind'; intros G st r S n.
  - cbn [e_item t_item]. rewrite <- !app_assoc. destruct (tok_head p v G st (close_braces n ++ NL :: r) S) as (pre & st' & E1 & E2).
    rewrite E1, (app_assoc (t_path p)), E2. rewrite tok_close_braces, <- app_assoc. auto.
  - apply good_block in G as [GH G]. cbn [e_item t_item]. rewrite <- !app_assoc.
    destruct (tok_head p v GH st (OPEN ++ e_items l ++ [NL; RBRACE] ++ close_braces n ++ NL :: r) S) as (pre & st' & E1 & E2).
    fold e_closed t_closed. change (sep_by [NL] (map e_closed l)) with (e_items l). rewrite E1, (app_assoc (t_path p)), E2.
    rewrite tok_open. cbn [app]. rewrite tok_items; [|rewrite Forall_forall in *; intros i Hi st0 r0 S0; split; [apply (IH i Hi (G i Hi) st0 r0 S0 0)|intros; apply IH; auto]|left; auto].
    change (tokens Bol (RBRACE :: close_braces n ++ NL :: r)) with (TClose :: tokens Mid (close_braces n ++ NL :: r)).
    rewrite tok_close_braces. cbn [flush app]. rewrite <- !app_assoc. cbn [app]. auto.
Qed.

(** *** running the tokens *)
Lemma expand_word w : word w -> expand_escapes w = Some w.
Proof.
  intros [_ H]. induction H as [|c w Hc _ IH]; auto. destruct (word_char_special c Hc) as (_ & _ & _ & _ & _ & _ & _ & _ & _ & E10 & _).
  cbn [expand_escapes]. rewrite E10, IH. auto.
Qed.
Lemma split_last_snoc ks x : split_last (ks ++ [x]) = Some (ks, x).
Proof. unfold split_last. rewrite rev_app_distr. cbn. rewrite rev_involutive. auto. Qed.
Definition with_kids (t : ptree) (l : list (bytes * ptree)) : ptree := Node (pdata t) (pkids t ++ l).
Lemma run_val w c k d ks stk r : match w with Some x => word x | None => True end ->
  run_info (k, Node d (ks ++ [(c, pempty)])) stk true true (t_val w ++ r) =
  run_info (k, Node d (ks ++ [(c, Node (val w) [])])) stk true (match w with None => true | _ => false end) r.
Proof.
  intros H. destruct w as [x|]; cbn [t_val app run_info]; auto. rewrite expand_word by auto. cbn [snd pkids fst pdata]. rewrite split_last_snoc. auto.
Qed.
(** After an item and its closing braces the top node has the item's children appended. *)
Definition runs (toks : list token) (kids : list (bytes * ptree)) : Prop :=
  forall k t stk last r, exists last',
    run_info (k, t) stk last false (toks ++ TEol :: r) = run_info (k, with_kids t kids) stk last' false r.
(** path prefix: descending, then [body] run on the last component, then closing *)
Lemma run_chain p leaf body : p <> [] -> Forall word p ->
  (forall w, word w -> runs (TWord w :: body) [(w, leaf)]) ->
  runs (removelast (t_path p) ++ TWord (List.last p []) :: body ++ t_close (length p - 1)) (chain p leaf).
Proof.
  intros N H B. induction p as [|w p IH]; [congruence|]. inversion H as [|? ? Hw Hp]; subst. destruct p as [|w' p].
  - cbn [t_path removelast app List.last length Nat.sub t_close chain]. rewrite app_nil_r. apply B; auto.
  - specialize (IH ltac:(discriminate) Hp).
    assert (NE : t_path (w' :: p) <> []) by (destruct p; discriminate).
    assert (RL : removelast (t_path (w :: w' :: p)) = [TWord w; TEol; TOpen; TEol] ++ removelast (t_path (w' :: p))).
    { change (t_path (w :: w' :: p)) with ([TWord w; TEol; TOpen; TEol] ++ t_path (w' :: p)). apply removelast_app. auto. }
    rewrite RL. change (List.last (w :: w' :: p) []) with (List.last (w' :: p) []).
    assert (CL : t_close (length (w :: w' :: p) - 1) = t_close (length (w' :: p) - 1) ++ [TEol; TClose]).
    { cbn [length]. replace (S (S (length p)) - 1) with (S (length p)) by lia. replace (S (length p) - 1) with (length p) by lia.
      generalize (length p). intros m. induction m as [|m IHm]; auto. change (t_close (S (S m))) with ([TEol; TClose] ++ t_close (S m)).
      rewrite IHm at 1. reflexivity. }
    rewrite CL. intros k t stk last r. cbn [app]. cbn [run_info]. rewrite expand_word by auto. cbn [run_info fst snd].
    unfold add_kid. cbn [pkids pdata]. rewrite split_last_snoc. cbn [fst snd pdata].
    rewrite <- !app_assoc. cbn [app]. rewrite <- !app_assoc. cbn [app].
    destruct (IH w pempty ((k, Node (pdata t) (pkids t)) :: stk) false (TClose :: TEol :: r)) as (l' & E).
    rewrite <- !app_assoc in E. cbn [app] in E. rewrite <- !app_assoc in E. cbn [app] in E. rewrite E. cbn [run_info fst snd]. exists false.
    unfold with_kids, add_kid. cbn [pdata pkids pempty app chain]. destruct t; reflexivity.
Qed.
Lemma runs_app t1 t2 k1 k2 : runs t1 k1 -> runs t2 k2 -> runs (t1 ++ TEol :: t2) (k1 ++ k2).
Proof.
  intros R1 R2 k t stk last r. destruct (R1 k t stk last (t2 ++ TEol :: r)) as (l1 & E1).
  destruct (R2 k (with_kids t k1) stk l1 r) as (l2 & E2). exists l2. rewrite <- app_assoc. cbn [app]. rewrite E1, E2.
  unfold with_kids. cbn [pdata pkids]. rewrite app_assoc. auto.
Qed.
Lemma runs_items l : Forall (fun i => runs (t_closed i) (kids_of i)) l -> l <> [] -> runs (t_sep (map t_closed l)) (concat (map kids_of l)).
Proof.
  induction 1 as [|i l Hi Hl IH]; [congruence|]. intros _. destruct l as [|i' l].
  - cbn [map t_sep concat]. rewrite app_nil_r. auto.
  - change (t_sep (map t_closed (i :: i' :: l))) with (t_closed i ++ TEol :: t_sep (map t_closed (i' :: l))).
    change (concat (map kids_of (i :: i' :: l))) with (kids_of i ++ concat (map kids_of (i' :: l))).
    apply runs_app; auto. apply IH. discriminate.
Qed.
Lemma t_path_last p : p <> [] -> t_path p = removelast (t_path p) ++ [TWord (List.last p [])].
Proof.
  induction p as [|w p IH]; [congruence|]. intros _. destruct p as [|w' p]; auto.
  assert (NE : t_path (w' :: p) <> []) by (destruct p; discriminate).
  change (t_path (w :: w' :: p)) with ([TWord w; TEol; TOpen; TEol] ++ t_path (w' :: p)). rewrite removelast_app by auto.
  rewrite IH at 1 by discriminate. rewrite app_assoc. auto.
Qed.
Lemma run_item i : good i -> runs (t_closed i) (kids_of i).
Proof.
  induction i as [p v|p v l IH] using item_ind'; intros G.
  - destruct G as (P1 & P2 & P3). unfold t_closed. cbn [t_item ipath kids_of]. rewrite t_path_last by auto. rewrite <- !app_assoc. cbn [app].
    apply run_chain; auto. intros w Hw k t stk last r. exists true. cbn [app run_info]. rewrite expand_word by auto. unfold add_kid. cbn [fst snd].
    rewrite run_val by auto. destruct v; reflexivity.
  - apply good_block in G as [(P1 & P2 & P3) G]. unfold t_closed. cbn [t_item ipath kids_of]. fold t_closed. rewrite t_path_last by auto. rewrite <- !app_assoc. cbn [app].
    replace (t_val v ++ TEol :: TOpen :: TEol :: t_sep (map t_closed l) ++ TEol :: TClose :: t_close (length p - 1))
      with ((t_val v ++ TEol :: TOpen :: TEol :: t_sep (map t_closed l) ++ [TEol; TClose]) ++ t_close (length p - 1))
      by (rewrite <- !app_assoc; cbn [app]; rewrite <- !app_assoc; reflexivity).
    apply run_chain; auto. intros w Hw k t stk last r. exists false. cbn [app run_info]. rewrite expand_word by auto. unfold add_kid. cbn [fst snd].
    rewrite <- !app_assoc. rewrite run_val by auto.
    assert (X : forall b, run_info (k, Node (pdata t) (pkids t ++ [(w, Node (val v) [])])) stk true b
       ((TEol :: TOpen :: TEol :: t_sep (map t_closed l) ++ [TEol; TClose]) ++ TEol :: r) =
       run_info (w, Node (val v) []) ((k, Node (pdata t) (pkids t)) :: stk) false false ((t_sep (map t_closed l) ++ [TEol; TClose]) ++ TEol :: r)).
    { intros b. cbn [app run_info fst snd pkids pdata]. rewrite split_last_snoc. reflexivity. }
    rewrite X. rewrite <- app_assoc. cbn [app].
    destruct l as [|i l].
    + cbn [map t_sep app run_info fst snd concat]. reflexivity.
    + destruct (runs_items (i :: l)) with (k := w) (t := Node (val v) []) (stk := (k, Node (pdata t) (pkids t)) :: stk) (last := false) (r := TClose :: TEol :: r)
        as (l' & E); [|discriminate|].
      { rewrite Forall_forall in *. intros j Hj. apply IH; auto. }
      rewrite E. reflexivity.
Qed.

Lemma read_info_items l : Forall good l -> read_info (e_items l ++ [NL]) = Some (tree_of l).
Proof.
  intros G. unfold read_info. rewrite tok_items; [|rewrite Forall_forall in *; intros i Hi; apply tok_item; auto|left; auto].
  destruct l as [|i l]; [reflexivity|].
  destruct (runs_items (i :: l)) with (k := @nil N) (t := pempty) (stk := @nil frame) (last := false) (r := [TEol]) as (l' & E); [|discriminate|].
  { rewrite Forall_forall in *. intros j Hj. apply run_item; auto. }
  change (tokens Bol []) with [TEol]. rewrite E. reflexivity.
Qed.
Lemma loadString_items t l : Forall good l -> loadString t (render_all l) = (tree_of l, Ok tt).
Proof. intros G. unfold loadString. rewrite no_quote_all, inline_all, read_info_items by auto. auto. Qed.

(** ** Rejection of unbalanced braces *)
Definition count (c : N) (s : bytes) : nat := length (filter (N.eqb c) s).
Lemma count_cons c x s : count c (x :: s) = (if N.eqb c x then 1 else 0) + count c s.
Proof. unfold count. cbn [filter]. destruct (N.eqb c x); auto. Qed.
Lemma inline_prefix s : forall cnt stk o, inline_to_info s cnt stk = Some o ->
  forall a b, s = a ++ b -> count RBRACE a <= count LBRACE a + length stk.
Proof.
  induction s as [|c s IH]; intros cnt stk o E a b Hs.
  - destruct a; [cbn; lia|discriminate].
  - destruct a as [|x a]; [cbn; lia|]. cbn [app] in Hs. injection Hs as <- ->. cbn [inline_to_info] in E.
    rewrite !count_cons. destruct (N.eqb c EQUALS) eqn:E1.
    { apply N.eqb_eq in E1. subst c. change (N.eqb RBRACE EQUALS) with false. change (N.eqb LBRACE EQUALS) with false.
      destruct (inline_to_info (a ++ b) cnt stk) eqn:X; [|discriminate]. apply (IH _ _ _ X a b); auto. }
    destruct (N.eqb c SLASH) eqn:E2.
    { apply N.eqb_eq in E2. subst c. change (N.eqb RBRACE SLASH) with false. change (N.eqb LBRACE SLASH) with false.
      destruct (inline_to_info (a ++ b) (S cnt) stk) eqn:X; [|discriminate]. apply (IH _ _ _ X a b); auto. }
    destruct (N.eqb c LBRACE) eqn:E3.
    { apply N.eqb_eq in E3. subst c. change (N.eqb RBRACE LBRACE) with false. rewrite N.eqb_refl.
      destruct (inline_to_info (a ++ b) 0 (cnt :: stk)) eqn:X; [|discriminate].
      specialize (IH _ _ _ X a b eq_refl). cbn [length] in IH. lia. }
    destruct (N.eqb c RBRACE) eqn:E4.
    { apply N.eqb_eq in E4. subst c. change (N.eqb LBRACE RBRACE) with false. rewrite N.eqb_refl.
      destruct stk as [|cnt' stk]; [discriminate|]. destruct (inline_to_info (a ++ b) cnt' stk) eqn:X; [|discriminate].
      specialize (IH _ _ _ X a b eq_refl). cbn [length]. lia. }
    rewrite (N.eqb_sym RBRACE c), (N.eqb_sym LBRACE c), E3, E4.
    destruct (N.eqb c COMMA).
    { destruct (inline_to_info (a ++ b) 0 stk) eqn:X; [|discriminate]. apply (IH _ _ _ X a b); auto. }
    destruct (inline_to_info (a ++ b) cnt stk) eqn:X; [|discriminate]. apply (IH _ _ _ X a b); auto.
Qed.
Definition opens (l : list token) := length (filter (fun t => match t with TOpen => true | _ => false end) l).
Definition closes (l : list token) := length (filter (fun t => match t with TClose => true | _ => false end) l).
Lemma opens_app a b : opens (a ++ b) = opens a + opens b.
Proof. unfold opens. rewrite filter_app, app_length. auto. Qed.
Lemma closes_app a b : closes (a ++ b) = closes a + closes b.
Proof. unfold closes. rewrite filter_app, app_length. auto. Qed.
Lemma flush_count st : opens (flush st) = 0 /\ closes (flush st) = 0.
Proof. destruct st; auto. Qed.
Lemma run_balanced l : forall top stk last data t, run_info top stk last data l = Some t ->
  opens l + length stk = closes l /\ ~ In TBad l.
Proof.
  induction l as [|x l IH]; intros top stk last data t E; cbn [run_info] in E.
  - destruct stk; [auto|discriminate].
  - destruct x.
    + apply IH in E as [E1 E2]. split; [exact E1|]. intros [X|X]; [discriminate|auto].
    + destruct last; [|discriminate]. destruct (split_last _) as [[ks x]|]; [|discriminate]. apply IH in E as [E1 E2].
      cbn [length] in E1. split; [|intros [X|X]; [discriminate|auto]]. change (opens (TOpen :: l)) with (S (opens l)). change (closes (TOpen :: l)) with (closes l). lia.
    + destruct stk as [|[k t'] stk]; [discriminate|]. apply IH in E as [E1 E2].
      split; [|intros [X|X]; [discriminate|auto]]. change (opens (TClose :: l)) with (opens l). change (closes (TClose :: l)) with (S (closes l)). cbn [length]. lia.
    + destruct (expand_escapes w); [|discriminate]. destruct data.
      * destruct (split_last _) as [[ks [k c]]|]; [|discriminate]. apply IH in E as [E1 E2].
        split; [exact E1|intros [X|X]; [discriminate|auto]].
      * apply IH in E as [E1 E2]. split; [exact E1|intros [X|X]; [discriminate|auto]].
    + discriminate.
Qed.
Lemma tok_closes n : forall st r, exists st', exists pre, tokens st (close_braces n ++ NL :: r) = pre ++ TEol :: tokens Bol r /\
  opens pre = 0 /\ closes pre = n /\ st' = st.
Proof.
  intros st r. exists st, (flush st ++ t_close n). rewrite tok_close_braces, <- app_assoc. repeat split.
  - rewrite opens_app. destruct (flush_count st) as [-> _]. induction n; auto.
  - rewrite closes_app. destruct (flush_count st) as [_ ->]. induction n as [|n IH]; auto. change (t_close (S n)) with ([TEol; TClose] ++ t_close n).
    rewrite closes_app. cbn [Nat.add] in *. rewrite IH. reflexivity.
Qed.
(** one raw character *)
Lemma tok_raw st c r : N.eqb c LBRACE = false -> N.eqb c RBRACE = false -> ~ In TBad (tokens st (c :: r)) ->
  exists pre st', tokens st (c :: r) = pre ++ tokens st' r /\ opens pre = 0 /\ closes pre = 0.
Proof.
  intros E3 E4 NB. cbn [tokens] in *. destruct (N.eqb c NL).
  { exists (flush st ++ [TEol]), Bol. rewrite <- app_assoc, opens_app, closes_app. destruct (flush_count st) as [-> ->]. auto. }
  destruct st.
  - destruct (is_space c); [exists [], Bol; auto|]. destruct (N.eqb c 59 || N.eqb c 0); [exists [], Skip; auto|].
    destruct (N.eqb c 35); [exfalso; apply NB; left; auto|]. cbn [andb]. rewrite E3, E4. exists [], (InWord [c]); auto.
  - destruct (is_space c); [exists [], Mid; auto|]. destruct (N.eqb c 59 || N.eqb c 0); [exists [], Skip; auto|].
    rewrite andb_false_r, E3, E4. exists [], (InWord [c]); auto.
  - destruct (is_space c); [exists [TWord (rev acc)], Mid; auto|]. destruct (N.eqb c 59 || N.eqb c 0); [exists [TWord (rev acc)], Skip; auto|].
    exists [], (InWord (c :: acc)); auto.
  - exists [], Skip; auto.
Qed.
Definition sum (l : list nat) := fold_right Nat.add 0 l.
Lemma inline_net s : forall cnt stk o, inline_to_info s cnt stk = Some o ->
  exists fin, length fin + count RBRACE s = length stk + count LBRACE s /\
    forall st, ~ In TBad (tokens st o) -> opens (tokens st o) + cnt + length stk + sum stk = closes (tokens st o) + length fin + sum fin.
Proof.
  induction s as [|c s IH]; intros cnt stk o E.
  - cbn [inline_to_info] in E. injection E as <-. exists stk. split; auto. intros st _.
    destruct (tok_closes cnt st []) as (_ & pre & -> & O & C & _). rewrite opens_app, closes_app, O, C. cbn. lia.
  - cbn [inline_to_info] in E. rewrite !count_cons. destruct (N.eqb c EQUALS) eqn:E1.
    { apply N.eqb_eq in E1. subst c. change (N.eqb RBRACE EQUALS) with false. change (N.eqb LBRACE EQUALS) with false.
      destruct (inline_to_info s cnt stk) as [b|] eqn:X; [|discriminate]. injection E as <-. destruct (IH _ _ _ X) as (fin & L & F).
      exists fin. split; [lia|]. intros st NB. destruct (tok_raw st 32%N b) as (pre & st' & T & O & C); auto. rewrite T in *.
      rewrite opens_app, closes_app, O, C. apply F. intros Y. apply NB. apply in_or_app; auto. }
    destruct (N.eqb c SLASH) eqn:E2.
    { apply N.eqb_eq in E2. subst c. change (N.eqb RBRACE SLASH) with false. change (N.eqb LBRACE SLASH) with false.
      destruct (inline_to_info s (S cnt) stk) as [b|] eqn:X; [|discriminate]. injection E as <-. destruct (IH _ _ _ X) as (fin & L & F).
      exists fin. split; [lia|]. intros st NB. change (NL :: LBRACE :: NL :: b) with (OPEN ++ b) in *. rewrite tok_open in *.
      rewrite !opens_app, !closes_app. destruct (flush_count st) as [-> ->]. change (opens [TEol; TOpen; TEol]) with 1. change (closes [TEol; TOpen; TEol]) with 0.
      specialize (F Bol). assert (NB' : ~ In TBad (tokens Bol b)) by (intros Y; apply NB; apply in_or_app; right; apply in_or_app; auto). apply F in NB'. lia. }
    destruct (N.eqb c LBRACE) eqn:E3.
    { apply N.eqb_eq in E3. subst c. change (N.eqb RBRACE LBRACE) with false. rewrite N.eqb_refl.
      destruct (inline_to_info s 0 (cnt :: stk)) as [b|] eqn:X; [|discriminate]. injection E as <-. destruct (IH _ _ _ X) as (fin & L & F).
      exists fin. cbn [length] in L. split; [lia|]. intros st NB. change (NL :: LBRACE :: NL :: b) with (OPEN ++ b) in *. rewrite tok_open in *.
      rewrite !opens_app, !closes_app. destruct (flush_count st) as [-> ->]. change (opens [TEol; TOpen; TEol]) with 1. change (closes [TEol; TOpen; TEol]) with 0.
      specialize (F Bol). assert (NB' : ~ In TBad (tokens Bol b)) by (intros Y; apply NB; apply in_or_app; right; apply in_or_app; auto). apply F in NB'. cbn [length sum fold_right] in NB'. fold (sum stk) in NB'. lia. }
    destruct (N.eqb c RBRACE) eqn:E4.
    { apply N.eqb_eq in E4. subst c. change (N.eqb LBRACE RBRACE) with false. rewrite N.eqb_refl.
      destruct stk as [|cnt' stk]; [discriminate|]. destruct (inline_to_info s cnt' stk) as [b|] eqn:X; [|discriminate]. injection E as <-.
      destruct (IH _ _ _ X) as (fin & L & F). exists fin. cbn [length] in *. split; [lia|]. intros st NB.
      cbn [app] in *. destruct (tok_closes cnt st (RBRACE :: b)) as (_ & pre & T & O & C & _). rewrite T in *.
      change (tokens Bol (RBRACE :: b)) with (TClose :: tokens Mid b) in *. rewrite !opens_app, !closes_app, O, C.
      specialize (F Mid). assert (NB' : ~ In TBad (tokens Mid b)) by (intros Y; apply NB; apply in_or_app; right; right; right; auto). apply F in NB'.
      cbn [sum fold_right]. fold (sum stk). change (opens (TEol :: TClose :: tokens Mid b)) with (opens (tokens Mid b)).
      change (closes (TEol :: TClose :: tokens Mid b)) with (S (closes (tokens Mid b))). lia. }
    rewrite (N.eqb_sym RBRACE c), (N.eqb_sym LBRACE c), E3, E4.
    destruct (N.eqb c COMMA).
    { destruct (inline_to_info s 0 stk) as [b|] eqn:X; [|discriminate]. injection E as <-. destruct (IH _ _ _ X) as (fin & L & F).
      exists fin. split; [lia|]. intros st NB. destruct (tok_closes cnt st b) as (_ & pre & T & O & C & _). rewrite T in *.
      rewrite opens_app, closes_app, O, C. change (opens (TEol :: tokens Bol b)) with (opens (tokens Bol b)). change (closes (TEol :: tokens Bol b)) with (closes (tokens Bol b)).
      specialize (F Bol). assert (NB' : ~ In TBad (tokens Bol b)) by (intros Y; apply NB; apply in_or_app; right; right; auto). apply F in NB'. lia. }
    destruct (inline_to_info s cnt stk) as [b|] eqn:X; [|discriminate]. injection E as <-. destruct (IH _ _ _ X) as (fin & L & F).
    exists fin. split; [lia|]. intros st NB. destruct (tok_raw st c b) as (pre & st' & T & O & C); auto. rewrite T in *.
    rewrite opens_app, closes_app, O, C. apply F. intros Y. apply NB. apply in_or_app; auto.
Qed.
Lemma loadString_balanced t s t' : loadString t s = (t', Ok tt) ->
  ~ In QUOTE s /\ (forall a b, s = a ++ b -> count RBRACE a <= count LBRACE a) /\ count RBRACE s = count LBRACE s.
Proof.
  unfold loadString. destruct (existsb (N.eqb QUOTE) s) eqn:Q; [discriminate|].
  destruct (inline_to_info s 0 []) as [o|] eqn:I; [|discriminate]. unfold read_info.
  destruct (run_info _ _ _ _ _) eqn:R; [|discriminate]. intros _. split; [|split].
  - intros X. assert (existsb (N.eqb QUOTE) s = true); [|congruence]. apply existsb_exists. exists QUOTE. split; auto.
  - intros a b Hs. pose proof (inline_prefix _ _ _ _ I a b Hs). cbn in H. lia.
  - apply run_balanced in R as [R NB]. destruct (inline_net _ _ _ _ I) as (fin & L & F). specialize (F Bol NB). cbn in *.
    destruct fin; cbn in *; lia.
Qed.
