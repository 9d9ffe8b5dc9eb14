(** C125: property trees in XML files. *)
From Verif Require Import Bytes Strings_Model PTree_Model PTree_Proofs PTree_Update InfoFile_Props XmlFile_Model.
Open Scope nat_scope.

(** ** Specification: the trees XML can hold *)
Definition without (forbidden s : bytes) : Prop := forall c, In c forbidden -> ~ In c s.
(** element names: not empty, without blank, tab, newline, carriage return, '/', '>', '?' and NUL, and not beginning with '!' *)
Definition xml_name (k : bytes) : Prop := k <> [] /\ without [32; 9; 10; 13; 47; 62; 63; 0]%N k /\ hd 0%N k <> 33%N.
(** attribute names: moreover without '<', '=' and '!' *)
Definition xml_attr_name (k : bytes) : Prop := k <> [] /\ without [32; 9; 10; 13; 47; 60; 62; 61; 63; 33; 0]%N k.
(** words separated by single blanks *)
Fixpoint unwords (ws : list bytes) : bytes := match ws with [] => [] | [w] => w | w :: r => w ++ 32%N :: unwords r end.
Definition neat (s : bytes) : Prop := exists ws, s = unwords ws /\ forall w, In w ws -> w <> [] /\ without [32; 9; 10; 13]%N w.
(** an attribute list as read_xml represents it *)
Definition attr_part (l : list (bytes * ptree)) : Prop :=
  l = [] \/ exists a, l = [(str "<xmlattr>", Node [] a)] /\ a <> [] /\ forall k c, In (k, c) a -> xml_attr_name k /\ exists v, c = Node v [] /\ ~ In 0%N v.
(** [h]: human readable input and output; [kc]: comments are kept *)
Inductive xml_node (h kc : bool) : ptree -> Prop :=
| xml_node_intro : forall d at_ ks, ~ In 0%N d -> (h = true -> neat d) -> attr_part at_ ->
    (forall k c, In (k, c) ks -> xml_kid h kc k c) -> xml_node h kc (Node d (at_ ++ ks))
with xml_kid (h kc : bool) : bytes -> ptree -> Prop :=
| xml_element : forall k c, xml_name k -> xml_node h kc c -> xml_kid h kc k c
| xml_comment : forall v, kc = true -> ~ In 0%N v -> (forall a b, v <> a ++ str "-->" ++ b) -> xml_kid h kc (str "<xmlcomment>") (Node v []).
Definition xml_tree (h kc : bool) (t : ptree) : Prop := pdata t = [] /\ forall k c, In (k, c) (pkids t) -> xml_kid h kc k c.

(** ** Proofs *)
Lemma without_char p forb k : (forall c, p c = false -> In c forb) -> without forb k -> forall c, In c k -> p c = true.
Proof. intros H W c I. destruct (p c) eqn:E; auto. exfalso. exact (W c (H c E) I). Qed.
Ltac charb := intros c; repeat match goal with |- context[N.eqb c ?n] => destruct (N.eqb_spec c n); [subst c|] end; cbn; intros; try discriminate; tauto.
Lemma name_forb c : name_char c = false -> In c [32; 9; 10; 13; 47; 62; 63; 0]%N.
Proof. revert c. unfold name_char, xws. charb. Qed.
Lemma attr_forb c : attr_char c = false -> In c [32; 9; 10; 13; 47; 60; 62; 61; 63; 33; 0]%N.
Proof. revert c. unfold attr_char, xws. charb. Qed.
Lemma xws_in c : xws c = true <-> In c [32; 9; 10; 13]%N.
Proof. split; [revert c; unfold xws; charb|]. intros [<- |[<- |[<- |[<- |[]]]]]; reflexivity. Qed.
Lemma xspan_app p a b : (forall c, In c a -> p c = true) -> match b with [] => True | c :: _ => p c = false end -> xspan p (a ++ b) = (a, b).
Proof.
  intros H B. induction a as [|c a IH]; cbn [app xspan].
  - destruct b as [|c b]; cbn [xspan]; [reflexivity|]. now rewrite B.
  - rewrite H by now left. rewrite IH by (intros; apply H; now right). reflexivity.
Qed.
Lemma xspan_spec p s a b : xspan p s = (a, b) -> s = a ++ b /\ (forall c, In c a -> p c = true) /\ match b with [] => True | c :: _ => p c = false end.
Proof.
  revert a b. induction s as [|c s IH]; cbn; intros a b H; [injection H as <- <-; cbn; tauto|]. destruct (p c) eqn:E.
  - destruct (xspan p s) as [x y]. injection H as <- <-. destruct (IH x y eq_refl) as (-> & A & B). split; [reflexivity|]. split; auto. intros e [<-|I]; auto.
  - injection H as <- <-. cbn. auto.
Qed.
Lemma xskip_ws w s : forallb xws w = true -> match s with [] => True | c :: _ => xws c = false end -> xskip (w ++ s) = s.
Proof. intros W S. unfold xskip. rewrite xspan_app; auto. now apply forallb_forall. Qed.
Lemma xskip_id s : match s with [] => True | c :: _ => xws c = false end -> xskip s = s.
Proof. exact (xskip_ws [] s eq_refl). Qed.
Lemma starts_app m s : starts m (m ++ s) = true.
Proof. induction m as [|c m IH]; cbn; auto. now rewrite N.eqb_refl. Qed.
Lemma starts_spec m s : starts m s = true <-> exists r, s = m ++ r.
Proof.
  split; [|intros (r & ->); apply starts_app]. revert s. induction m as [|a m IH]; cbn; intros s H; [eauto|]. destruct s as [|c s]; [discriminate|].
  apply andb_prop in H as [E H]. apply N.eqb_eq in E as <-. destruct (IH s H) as (r & ->). eauto.
Qed.
Lemma skipn_app_len {A} (a b : list A) : skipn (length a) (a ++ b) = b.
Proof. induction a; cbn; auto. Qed.
(** upto stops at the first occurrence *)
Lemma upto_spec m s a b : m <> [] -> upto m s = Some (a, b) -> s = a ++ m ++ b /\ forall x y, a <> x ++ m ++ y.
Proof.
  intros NE. revert a b. induction s as [|c s IH]; cbn [upto]; intros a b H.
  - destruct (starts m []) eqn:E; [|discriminate]. apply starts_spec in E as (r & E). destruct m; [congruence | discriminate].
  - destruct (starts m (c :: s)) eqn:E.
    + injection H as <- <-. apply starts_spec in E as (r & ->). rewrite skipn_app_len. split; [reflexivity|]. intros x y X. destruct x; [destruct m; [congruence | discriminate] | discriminate].
    + destruct (upto m s) as [[a' b']|]; [|discriminate]. injection H as <- <-. destruct (IH a' b' eq_refl) as [-> N]. split; [reflexivity|].
      intros x y X. destruct x as [|e x]; [|injection X as _ X; exact (N x y X)]. cbn [app] in X. apply Bool.not_true_iff_false in E. apply E. apply starts_spec.
      exists (y ++ m ++ b'). change (c :: a' ++ m ++ b') with ((c :: a') ++ m ++ b'). rewrite X, <- !app_assoc. reflexivity.
Qed.
Lemma upto_comment v r : (forall a b, v <> a ++ str "-->" ++ b) -> upto (str "-->") (v ++ str "-->" ++ r) = Some (v, r).
Proof.
  induction v as [|c v IH]; intros H; [reflexivity|]. cbn [app upto].
  replace (starts (str "-->") (c :: v ++ str "-->" ++ r)) with false.
  - rewrite IH; [reflexivity|]. intros a b ->. apply (H (c :: a) b). reflexivity.
  - symmetry. apply Bool.not_true_iff_false. intros E. destruct v as [|c2 [|c3 v]]; cbn [app] in E.
    + cbn in E. rewrite !Bool.andb_false_r in E. discriminate.
    + cbn in E. rewrite !Bool.andb_false_r in E. discriminate.
    + apply andb_prop in E as [E1 E]. apply andb_prop in E as [E2 E]. apply andb_prop in E as [E3 _]. apply N.eqb_eq in E1, E2, E3. subst.
      apply (H [] v). reflexivity.
Qed.

(** ** Text *)
Lemma expand_char norm stop f c r : N.eqb 38 c = false -> stop c = false -> norm && xws c = false ->
  expand norm stop (S f) (c :: r) = match expand norm stop f r with Some (a, b) => Some (c :: a, b) | None => None end.
Proof. intros A B C. cbn [expand]. rewrite B, C. cbn [str starts]. cbn in A |- *. rewrite A. reflexivity. Qed.
Definition mild (stop : byte -> bool) : Prop := forall c, stop c = true -> In c [34; 39; 60]%N.
Lemma expand_enc norm stop f c r : mild stop -> norm && xws c = false -> length (enc_char c ++ r) < f ->
  expand norm stop f (enc_char c ++ r) = match expand norm stop (pred f) r with Some (a, b) => Some (c :: a, b) | None => None end.
Proof.
  intros M W L. destruct f as [|f]; [lia|]. cbn [pred].
  assert (ST : forall c, ~ In c [34; 39; 60]%N -> stop c = false) by (intros c' H; apply Bool.not_true_iff_false; intros E; exact (H (M c' E))).
  destruct (N.eq_dec c 60) as [-> |N1]; [cbn [enc_char str app expand]; rewrite ST by (cbn; intuition discriminate); reflexivity|].
  destruct (N.eq_dec c 62) as [-> |N2]; [cbn [enc_char str app expand]; rewrite ST by (cbn; intuition discriminate); reflexivity|].
  destruct (N.eq_dec c 38) as [-> |N3]; [cbn [enc_char str app expand]; rewrite ST by (cbn; intuition discriminate); reflexivity|].
  destruct (N.eq_dec c 34) as [-> |N4]; [cbn [enc_char str app expand]; rewrite ST by (cbn; intuition discriminate); reflexivity|].
  destruct (N.eq_dec c 39) as [-> |N5]; [cbn [enc_char str app expand]; rewrite ST by (cbn; intuition discriminate); reflexivity|].
  assert (E : enc_char c = [c]).
  { unfold enc_char. clear - N1 N2 N3 N4 N5. repeat match goal with |- context[match ?x with _ => _ end] => destruct x; try reflexivity; try congruence end. }
  rewrite E. cbn [app]. rewrite expand_char; auto.
  - apply N.eqb_neq. congruence.
  - apply ST. cbn. intuition congruence.
Qed.
Lemma enc_nonnil c : exists x r, enc_char c = x :: r /\ xws x = xws c /\ x <> 60%N /\ (c <> 0%N -> x <> 0%N).
Proof.
  unfold enc_char. repeat match goal with |- context[match ?x with _ => _ end] => destruct x end; cbn [str]; eexists _, _; (split; [reflexivity|]); (split; [reflexivity|]); split; try discriminate; try congruence; intros; discriminate.
Qed.
Lemma enc_length c : 1 <= length (enc_char c).
Proof. destruct (enc_nonnil c) as (x & r & -> & _). cbn. lia. Qed.
Lemma expand_stop norm stop f c r : stop c = true -> 0 < f -> expand norm stop f (c :: r) = Some ([], c :: r).
Proof. intros S F. destruct f; [lia|]. cbn [expand]. now rewrite S. Qed.
Lemma expand_map stop d : mild stop -> forall f c r, stop c = true -> length (flat_map enc_char d ++ c :: r) < f ->
  expand false stop f (flat_map enc_char d ++ c :: r) = Some (d, c :: r).
Proof.
  intros M. induction d as [|e d IH]; intros f c r S L; cbn [flat_map app] in *; [apply expand_stop; auto; lia|].
  rewrite <- app_assoc in *. rewrite expand_enc by auto. rewrite IH; auto. rewrite app_length in L. pose proof (enc_length e). lia.
Qed.
Lemma expand_blanks stop d : mild stop -> forall f c r, stop c = true -> forallb (N.eqb 32%N) d = true -> length (d ++ c :: r) < f ->
  expand false stop f (d ++ c :: r) = Some (d, c :: r).
Proof.
  intros M. induction d as [|e d IH]; intros f c r S B L; cbn [app] in *; [apply expand_stop; auto; lia|]. destruct f; [lia|]. cbn [forallb] in B. apply andb_prop in B as [E B].
  apply N.eqb_eq in E. subst e. cbn [length] in L. rewrite expand_char; [rewrite IH; auto; lia | reflexivity | | reflexivity].
  apply Bool.not_true_iff_false. intros X. apply M in X. cbn in X. intuition discriminate.
Qed.
(** without normalisation every text is read back *)
Lemma expand_encode stop d f c r : mild stop -> stop c = true -> length (encode d ++ c :: r) < f ->
  expand false stop f (encode d ++ c :: r) = Some (d, c :: r).
Proof.
  intros M SC L. unfold encode in *. destruct d as [|e d]; [cbn [app] in *; apply expand_stop; auto; lia|].
  destruct (forallb (N.eqb 32%N) (e :: d)) eqn:B; [|now apply expand_map].
  cbn [forallb] in B. apply andb_prop in B as [E B]. apply N.eqb_eq in E. subst e. rewrite <- app_assoc in *.
  destruct f; [lia|]. assert (ST : stop 38%N = false) by (apply Bool.not_true_iff_false; intros X; apply M in X; cbn in X; intuition discriminate).
  change (str "&#32;") with [38; 35; 51; 50; 59]%N in *. cbn [app] in *. cbn [length] in L.
  change (expand false stop (S f) (38 :: 35 :: 51 :: 50 :: 59 :: d ++ c :: r)%N)
    with (if stop 38%N then Some ([], (38 :: 35 :: 51 :: 50 :: 59 :: d ++ c :: r)%N) else match expand false stop f (d ++ c :: r) with Some (a, b) => Some ([32%N] ++ a, b) | None => None end).
  rewrite ST, expand_blanks; auto. lia.
Qed.
(** neat text with normalisation: white space that follows becomes one blank *)
Fixpoint tidy (s : bytes) : Prop :=
  match s with
  | [] => True
  | c :: r => (xws c = true -> c = 32%N /\ match r with [] => False | e :: _ => xws e = false end) /\ tidy r
  end.
Lemma tidy_word w s : (forall c, In c w -> xws c = false) -> tidy s -> tidy (w ++ s).
Proof. intros W T. induction w as [|c w IH]; cbn; auto. split; [rewrite W by (now left); discriminate|]. apply IH. intros; apply W; now right. Qed.
Lemma word_ws w : without [32; 9; 10; 13]%N w -> forall c, In c w -> xws c = false.
Proof. intros W c I. apply Bool.not_true_iff_false. intros X. apply xws_in in X. exact (W c X I). Qed.
Lemma neat_tidy s : neat s -> tidy s /\ match s with [] => True | c :: _ => xws c = false end.
Proof.
  intros (ws & -> & H). induction ws as [|w ws IH]; [split; exact I|].
  destruct (H w (or_introl eq_refl)) as [NE W]. pose proof (word_ws w W) as WW.
  assert (HD : forall x, match w ++ x with [] => True | c :: _ => xws c = false end) by (intros x; destruct w as [|c w]; [congruence|]; cbn; apply WW; now left).
  destruct ws as [|w2 ws]; [cbn [unwords]; specialize (HD []); rewrite app_nil_r in HD; split; auto; rewrite <- (app_nil_r w); apply tidy_word; cbn; auto|].
  destruct IH as [T B]; [intros x X; apply H; now right|]. change (unwords (w :: w2 :: ws)) with (w ++ 32%N :: unwords (w2 :: ws)). split; [|apply HD].
  apply tidy_word; auto. cbn [tidy]. split; [|exact T]. intros _. split; [reflexivity|]. destruct (unwords (w2 :: ws)) eqn:E; auto.
  destruct (H w2 (or_intror (or_introl eq_refl))) as [N2 _]. destruct w2 as [|a w2]; [congruence|]. destruct ws; discriminate E.
Qed.
Lemma expand_tidy stop d : mild stop -> (forall c, xws c = true -> stop c = false) -> tidy d -> forall f w c r, stop c = true -> xws c = false -> forallb xws w = true ->
  length (flat_map enc_char d ++ w ++ c :: r) < f ->
  expand true stop f (flat_map enc_char d ++ w ++ c :: r) = Some (d ++ match w with [] => [] | _ => [32%N] end, c :: r).
Proof.
  intros M SW T. assert (SP : forall f x w c r, xws x = true -> forallb xws w = true -> xws c = false -> expand true stop (S f) (x :: w ++ c :: r) =
     match expand true stop f (c :: r) with Some (a, b) => Some (32%N :: a, b) | None => None end).
  { intros f x w c r X W C. assert (SX := SW x X). assert (X38 : N.eqb 38 x = false) by (apply N.eqb_neq; intros <-; discriminate X).
    cbn [expand]. rewrite SX, X. cbn [str starts]. cbn in X38 |- *. rewrite X38. cbn [andb]. rewrite xskip_ws; auto. }
  induction d as [|e d IH]; intros f w c r SC C W L; cbn [flat_map app] in *.
  - destruct w as [|x w]; cbn [app] in *; [apply expand_stop; auto; lia|]. destruct f; [lia|]. cbn [forallb] in W. apply andb_prop in W as [X W].
    rewrite SP by auto. rewrite expand_stop; auto. cbn [length] in L. rewrite app_length in L. cbn in L. lia.
  - destruct T as [TE T]. specialize (IH T). rewrite <- app_assoc in *. pose proof (enc_length e) as LE. rewrite app_length in L.
    destruct (xws e) eqn:E.
    + destruct (TE eq_refl) as [-> B]. destruct d as [|e2 d]; [contradiction|]. change (enc_char 32) with [32%N] in *. cbn [app length] in L |- *. destruct f; [lia|].
      specialize (IH f w c r SC C W ltac:(lia)). cbn [flat_map] in IH |- *. rewrite <- !app_assoc in *.
      destruct (enc_nonnil e2) as (x & q & EQ & XW & _). rewrite EQ in *. cbn [app] in *.
      change (32%N :: x :: q ++ flat_map enc_char d ++ w ++ c :: r) with (32%N :: [] ++ x :: (q ++ flat_map enc_char d ++ w ++ c :: r)).
      rewrite SP by (auto; congruence). rewrite IH. reflexivity.
    + rewrite expand_enc; auto; [rewrite IH; auto; lia|]. rewrite app_length. lia.
Qed.
Lemma mild_lt : mild (N.eqb xLT).
Proof. intros c H. apply N.eqb_eq in H as <-. right; right; now left. Qed.
Lemma tidy_last d x : tidy (d ++ [x]) -> xws x = false.
Proof. induction d as [|c d IH]; cbn; intros [A B]; auto. apply Bool.not_true_iff_false. intros E. now destruct (A E). Qed.
Definition wsok (h : bool) (w : bytes) : Prop := if h then forallb xws w = true else w = [].
Lemma p_data_text h d w r : d <> [] -> (h = true -> neat d) -> wsok h w -> p_data h (encode d ++ w ++ xLT :: r) = Some (d, xLT :: r).
Proof.
  intros NE T W. unfold p_data. destruct h; cbn [wsok] in W.
  - destruct (neat_tidy d (T eq_refl)) as [TD HD].
    assert (E : encode d = flat_map enc_char d).
    { unfold encode. destruct d as [|c d]; [reflexivity|]. destruct (forallb (N.eqb 32%N) (c :: d)) eqn:B; auto. cbn [forallb] in B. apply andb_prop in B as [B _]. apply N.eqb_eq in B as <-. discriminate HD. }
    rewrite E. rewrite (expand_tidy _ d mild_lt); auto.
    + f_equal. f_equal. destruct w as [|x w]; [rewrite app_nil_r | now rewrite rev_unit, rev_involutive].
      destruct (rev d) as [|y q] eqn:R; auto. assert (D : d = rev q ++ [y]) by (rewrite <- (rev_involutive d), R; reflexivity).
      assert (Y : xws y = false) by (apply (tidy_last (rev q)); rewrite <- D; exact TD). destruct (N.eq_dec y 32) as [-> |Y2]; [discriminate Y|].
      clear - Y2. repeat match goal with |- context[match ?x with _ => _ end] => destruct x; try reflexivity; try congruence end.
    + intros c C. apply Bool.not_true_iff_false. intros X. apply N.eqb_eq in X as <-. discriminate C.
  - subst w. cbn [app]. rewrite (expand_encode _ d _ _ _ mild_lt); auto.
Qed.
Lemma encode_head d : d <> [] -> exists x r, encode d = x :: r /\ x <> 60%N /\ (xws x = true -> exists q, d = hd 0%N d :: q /\ xws (hd 0%N d) = true).
Proof.
  intros NE. destruct d as [|c d]; [congruence|]. unfold encode. destruct (forallb _ _).
  - eexists _, _. split; [reflexivity|]. split; discriminate.
  - cbn [flat_map]. destruct (enc_nonnil c) as (x & r & -> & X & L & _). eexists _, _. split; [reflexivity|]. split; [exact L|]. rewrite X. cbn. eauto.
Qed.

(** ** Attributes *)
Definition write_attr (p : bytes * ptree) : bytes := 32%N :: fst p ++ str "=""" ++ encode (pdata (snd p)) ++ str """".
Lemma p_attrs_ok l : (forall k c, In (k, c) l -> xml_attr_name k) -> forall f e r, (e = xGT \/ e = xSL) -> length (flat_map write_attr l ++ e :: r) < f ->
  p_attrs f (xskip (flat_map write_attr l ++ e :: r)) = Some (map (fun p => (fst p, pdata (snd p))) l, e :: r).
Proof.
  induction l as [|[k c] l IH]; intros H f e r E L; cbn [flat_map app map] in *.
  - rewrite xskip_id by (destruct E as [-> | ->]; reflexivity). destruct f; [lia|]. cbn [p_attrs xspan]. destruct E as [-> | ->]; reflexivity.
  - destruct (H k c (or_introl eq_refl)) as [NE W]. pose proof (without_char attr_char _ k attr_forb W) as A.
    unfold write_attr at 1 in L. unfold write_attr at 1. cbn [fst snd app] in *. rewrite <- !app_assoc in *. cbn [str app] in *. change (N_of_ascii "=") with 61%N in *. change (N_of_ascii """") with 34%N in *.
    set (R := flat_map write_attr l ++ e :: r) in *. destruct f; [lia|].
    assert (SK : xskip (32%N :: k ++ 61%N :: 34%N :: encode (pdata c) ++ 34%N :: R) = k ++ 61%N :: 34%N :: encode (pdata c) ++ 34%N :: R).
    { apply (xskip_ws [32%N]); auto. destruct k as [|x k]; [congruence|]. cbn. specialize (A x (or_introl eq_refl)). apply Bool.not_true_iff_false. intros X. unfold attr_char in A. rewrite X in A. discriminate A. }
    rewrite SK. cbn [p_attrs]. rewrite xspan_app by (auto; reflexivity). destruct k as [|x k]; [congruence|]. cbv beta iota.
    rewrite xskip_id by reflexivity. cbn [N.eqb Pos.eqb]. rewrite xskip_id by reflexivity. cbn [N.eqb Pos.eqb orb].
    rewrite (expand_encode (N.eqb 34)); [| intros y Y; apply N.eqb_eq in Y as <-; now left | reflexivity | lia].
    unfold R. rewrite IH; auto; [intros; eapply H; right; eassumption|]. cbn [length] in L. rewrite !app_length in L. cbn [length] in L. fold R. rewrite app_length in L. cbn in L. lia.
Qed.

(** ** Writing *)
Definition attr_kids (at_ : list (bytes * ptree)) : list (bytes * ptree) := match at_ with (_, a) :: _ => pkids a | [] => [] end.
Definition elem_body (h : bool) (n : nat) (key d : bytes) (at_ ks : list (bytes * ptree)) : bytes :=
  key ++ flat_map write_attr (attr_kids at_) ++
  (if is_nil d && is_nil ks then [xSL; xGT]
   else xGT :: (if is_nil ks then [] else xnl h) ++ (if is_nil d then [] else write_text h (S n) (negb (is_nil ks) && h) d) ++
        flat_map (write_kid h (S n) (negb (is_nil ks) && h)) ks ++ (if is_nil ks then [] else xindent h n) ++ [xLT; xSL] ++ key ++ [xGT]).
Lemma write_elem_eq h n key d ks : write_elem h n key (Node d ks) =
  if is_nil d && is_nil ks then xindent h n ++ xLT :: key ++ [xSL; xGT] ++ xnl h
  else xindent h n ++ xLT :: key ++ write_attrs ks ++
    (if attrs_only d ks then [xSL; xGT] ++ xnl h else xGT :: (if has_elements ks then xnl h else [])) ++
    (if is_nil d then [] else write_text h (S n) (has_elements ks && h) d) ++
    flat_map (write_kid h (S n) (has_elements ks && h)) ks ++
    (if attrs_only d ks then [] else (if has_elements ks then xindent h n else []) ++ [xLT; xSL] ++ key ++ xGT :: xnl h).
Proof.
  cbn [write_elem]. set (sep := has_elements ks && h).
  assert (K : forall l, (fix kids (l : list (bytes * ptree)) : bytes :=
             match l with
             | [] => []
             | (k, c) :: r =>
                 (if bytes_eqb k XMLATTR then []
                  else if bytes_eqb k XMLCOMMENT then write_comment h (S n) (pdata c)
                  else if bytes_eqb k XMLTEXT then write_text h (S n) sep (pdata c)
                  else write_elem h (S n) k c) ++ kids r
             end) l = flat_map (write_kid h (S n) sep) l); [|now rewrite K].
  induction l as [|[k c] l IH]; cbn [flat_map]; [reflexivity|]. rewrite IH. reflexivity.
Qed.
Lemma xml_kid_key h kc k c : xml_kid h kc k c -> bytes_eqb k XMLATTR = false /\ bytes_eqb k XMLTEXT = false.
Proof.
  intros [k' c' (NE & W & _) _ | v _ _ _]; [|split; reflexivity].
  assert (G : forall m, In 62%N m -> bytes_eqb k' m = false).
  { intros m I. apply Bool.not_true_iff_false. intros E. apply bytes_eqb_eq in E as ->. apply (W 62%N); [cbn; tauto | exact I]. }
  split; apply G; cbn; tauto.
Qed.
Section Shape.
  Variables h kc : bool.
  Variable ks : list (bytes * ptree).
  Hypothesis KS : forall k c, In (k, c) ks -> xml_kid h kc k c.
  Lemma find_attr at_ : attr_part at_ -> find_kid (at_ ++ ks) XMLATTR = match at_ with [] => None | (_, a) :: _ => Some a end.
  Proof using KS.
    intros [-> |(a & -> & _)]; [|reflexivity]. cbn [app]. induction ks as [|[k c] l IH]; [reflexivity|]. cbn [find_kid].
    destruct (xml_kid_key _ _ _ _ (KS k c (or_introl eq_refl))) as [E _]. rewrite E. apply IH. intros; apply KS; now right.
  Qed.
  Lemma write_attrs_eq at_ : attr_part at_ -> write_attrs (at_ ++ ks) = flat_map write_attr (attr_kids at_).
  Proof using KS. intros A. unfold write_attrs. rewrite find_attr by auto. destruct A as [-> |(a & -> & _)]; reflexivity. Qed.
  Lemma has_elements_eq at_ : attr_part at_ -> has_elements (at_ ++ ks) = negb (is_nil ks).
  Proof using KS.
    intros A. transitivity (has_elements ks); [destruct A as [-> |(a & -> & _)]; reflexivity|]. destruct ks as [|[k c] l]; [reflexivity|]. cbn [has_elements existsb fst is_nil negb].
    destruct (xml_kid_key _ _ _ _ (KS k c (or_introl eq_refl))) as [E1 E2]. rewrite E1, E2. reflexivity.
  Qed.
  Lemma attrs_only_eq d at_ : attr_part at_ -> attrs_only d (at_ ++ ks) = is_nil d && is_nil ks.
  Proof using KS.
    intros A. unfold attrs_only. f_equal. rewrite forallb_app. transitivity (forallb (fun p => bytes_eqb (fst p) XMLATTR) ks); [destruct A as [-> |(a & -> & _)]; reflexivity|].
    destruct ks as [|[k c] l]; [reflexivity|]. cbn [forallb fst is_nil]. destruct (xml_kid_key _ _ _ _ (KS k c (or_introl eq_refl))) as [E1 _]. now rewrite E1.
  Qed.
  Lemma write_kids_eq n sep at_ : attr_part at_ -> flat_map (write_kid h n sep) (at_ ++ ks) = flat_map (write_kid h n sep) ks.
  Proof using. intros A. rewrite flat_map_app. destruct A as [-> |(a & -> & _)]; reflexivity. Qed.
  Lemma write_elem_body n key d at_ : attr_part at_ -> write_elem h n key (Node d (at_ ++ ks)) = xindent h n ++ xLT :: elem_body h n key d at_ ks ++ xnl h.
  Proof using KS.
    intros A. rewrite write_elem_eq, write_attrs_eq, attrs_only_eq, has_elements_eq, write_kids_eq by auto. unfold elem_body.
    assert (N : is_nil (at_ ++ ks) = is_nil at_ && is_nil ks) by (destruct A as [-> |(a & -> & _)]; reflexivity). rewrite N.
    destruct (is_nil d) eqn:D; cbn [andb].
    - destruct (is_nil ks) eqn:K; cbn [andb negb].
      + destruct ks; [|discriminate]. destruct A as [-> |(a & -> & _)]; cbn [is_nil andb attr_kids flat_map app]; rewrite <- !app_assoc; cbn [app]; rewrite ?app_nil_r; reflexivity.
      + rewrite Bool.andb_false_r. rewrite <- !app_assoc. cbn [app]. rewrite <- !app_assoc. cbn [app]. rewrite <- !app_assoc. reflexivity.
    - destruct (is_nil ks) eqn:K; cbn [andb negb]; rewrite <- !app_assoc; cbn [app]; rewrite <- ?app_assoc; cbn [app]; rewrite <- ?app_assoc; reflexivity.
  Qed.
End Shape.

(** ** Reading what was written *)
Definition text_x (d : bytes) : list xnode := if is_nil d then [] else [XData d].
Fixpoint kid_x (k : bytes) (t : ptree) : xnode :=
  match t with
  | Node d ks =>
      if bytes_eqb k XMLCOMMENT then XComment d
      else XElem k (match find_kid ks XMLATTR with Some a => map (fun p => (fst p, pdata (snd p))) (pkids a) | None => [] end)
             (text_x d ++ (fix kids (l : list (bytes * ptree)) : list xnode :=
                match l with [] => [] | (k', c) :: r => if bytes_eqb k' XMLATTR then kids r else kid_x k' c :: kids r end) ks)
  end.
Definition kx (p : bytes * ptree) : xnode := kid_x (fst p) (snd p).
Lemma name_not_comment k : xml_name k -> bytes_eqb k XMLCOMMENT = false.
Proof. intros (_ & W & _). apply Bool.not_true_iff_false. intros E. apply bytes_eqb_eq in E as ->. apply (W 62%N); cbn; tauto. Qed.
Lemma kid_x_elem h kc k d at_ ks : xml_name k -> attr_part at_ -> (forall k c, In (k, c) ks -> xml_kid h kc k c) ->
  kid_x k (Node d (at_ ++ ks)) = XElem k (map (fun p => (fst p, pdata (snd p))) (attr_kids at_)) (text_x d ++ map kx ks).
Proof.
  intros NK A KS. cbn [kid_x]. rewrite (name_not_comment k NK), (find_attr h kc ks KS at_ A).
  assert (K : forall l, (forall k c, In (k, c) l -> xml_kid h kc k c) -> (fix kids (l : list (bytes * ptree)) : list xnode :=
     match l with [] => [] | (k', c) :: r => if bytes_eqb k' XMLATTR then kids r else kid_x k' c :: kids r end) l = map kx l).
  { induction l as [|[k' c] l IH]; intros H; [reflexivity|]. destruct (xml_kid_key _ _ _ _ (H k' c (or_introl eq_refl))) as [E _]. rewrite E. cbn [map]. unfold kx at 1. cbn [fst snd]. f_equal.
    apply IH. intros; apply H; now right. }
  f_equal; [destruct A as [-> |(a & -> & _)]; reflexivity|]. f_equal. destruct A as [-> |(a & -> & _)]; cbn [app]; [now apply K|]. cbn [bytes_eqb]. change (bytes_eqb (str "<xmlattr>") XMLATTR) with true. cbv iota. now apply K.
Qed.
Lemma p_elem_S h nc f s : p_elem h nc (S f) s =
  match xspan name_char s with
  | ([], _) => None
  | (name, r) =>
      match p_attrs (S (length r)) (xskip r) with
      | Some (a, c :: r1) =>
          if N.eqb c 62 then match p_contents h nc f r1 with Some (ks, r2) => Some (XElem name a ks, r2) | None => None end
          else if N.eqb c 47 then match r1 with e :: r2 => if N.eqb e 62 then Some (XElem name a [], r2) else None | [] => None end
          else None
      | _ => None
      end
  end.
Proof. reflexivity. Qed.
Section Parse.
  Variables h kc : bool.
  Notation elem := (p_elem h (negb kc)). Notation contents := (p_contents h (negb kc)).
  Lemma wsok_skip w s : wsok h w -> match s with [] => True | c :: _ => xws c = false end -> (if h then xskip (w ++ s) else w ++ s) = s.
  Proof using. destruct h; cbn [wsok]; [apply xskip_ws | intros -> _; reflexivity]. Qed.
  Lemma wsok_app a b : wsok h a -> wsok h b -> wsok h (a ++ b).
  Proof using. destruct h; cbn [wsok]; [|now intros -> ->]. intros A B. rewrite forallb_app, A, B. reflexivity. Qed.
  Lemma wsok_nl : wsok h (xnl h). Proof using. destruct h; reflexivity. Qed.
  Lemma wsok_indent n : wsok h (xindent h n).
  Proof using. destruct h; [|reflexivity]. cbn. induction n; cbn; auto. Qed.
  Lemma wsok_nil : wsok h []. Proof using. destruct h; reflexivity. Qed.
  (** a child *)
  Lemma contents_child f w c s : wsok h w -> c <> 47%N -> contents (S f) (w ++ xLT :: c :: s) =
    match p_special (negb kc) (c :: s) with
    | Some (Some (x, r1)) => match contents f r1 with Some (ks, r') => Some (match x with Some y => y :: ks | None => ks end, r') | None => None end
    | Some None => None
    | None => match elem f (c :: s) with Some (x, r1) => match contents f r1 with Some (ks, r') => Some (x :: ks, r') | None => None end | None => None end
    end.
  Proof using.
    intros W C. cbn [p_contents]. rewrite wsok_skip by (auto; reflexivity). rewrite N.eqb_refl. cbn [starts]. replace (N.eqb xSL c) with false by (symmetry; apply N.eqb_neq; unfold xSL; congruence). reflexivity.
  Qed.
  Lemma contents_ws f w s : wsok h w -> contents f (w ++ xLT :: s) = contents f (xLT :: s).
  Proof using.
    intros W. destruct f; [reflexivity|]. cbn [p_contents]. rewrite wsok_skip by (auto; reflexivity).
    replace (if h then xskip (xLT :: s) else xLT :: s) with (xLT :: s); [reflexivity|]. destruct h; [|reflexivity]. symmetry. now apply xskip_id.
  Qed.
  (** the end *)
  Lemma contents_close f w k r : wsok h w -> without [32; 9; 10; 13; 47; 62; 63; 0]%N k -> 0 < f -> contents f (w ++ [xLT; xSL] ++ k ++ xGT :: r) = Some ([], r).
  Proof using.
    intros W K F. destruct f; [lia|]. cbn [p_contents app]. rewrite wsok_skip by (auto; reflexivity). cbn [N.eqb Pos.eqb xLT starts andb xSL skipn].
    rewrite xspan_app; [|exact (without_char name_char _ k name_forb K) | reflexivity]. cbn [snd]. rewrite xskip_id by reflexivity. reflexivity.
  Qed.
  (** text *)
  Lemma contents_text f w w2 d r ks r' : wsok h w -> wsok h w2 -> d <> [] -> (h = true -> neat d) ->
    contents f (xLT :: r) = Some (ks, r') -> contents (S f) (w ++ encode d ++ w2 ++ xLT :: r) = Some (XData d :: ks, r').
  Proof using.
    intros W W2 NE T C. destruct (encode_head d NE) as (x & q & E & X & XW).
    assert (ST : match encode d ++ w2 ++ xLT :: r with [] => True | c :: _ => h = true -> xws c = false end).
    { rewrite E. cbn [app]. intros Hh. apply Bool.not_true_iff_false. intros B. destruct (XW B) as (u & D & BH). destruct (neat_tidy d (T Hh)) as [_ HD]. rewrite D in HD. congruence. }
    cbn [p_contents]. assert (SK : (if h then xskip (w ++ encode d ++ w2 ++ xLT :: r) else w ++ encode d ++ w2 ++ xLT :: r) = encode d ++ w2 ++ xLT :: r).
    { destruct h; cbn [wsok] in W; [apply xskip_ws; auto | now subst w]. destruct (encode d ++ w2 ++ xLT :: r); auto. }
    rewrite SK. rewrite <- SK at 1. rewrite SK. pose proof (p_data_text h d w2 r NE T W2) as P. rewrite E in *. cbn [app] in *.
    replace (N.eqb x xLT) with false by (symmetry; apply N.eqb_neq; exact X). rewrite P, C. reflexivity.
  Qed.
  Definition reads (t : ptree) : Prop := forall d at_ ks, t = Node d (at_ ++ ks) -> attr_part at_ -> ~ In 0%N d -> (h = true -> neat d) ->
    (forall k c, In (k, c) ks -> xml_kid h kc k c) ->
    forall n k rest f, xml_name k -> length (elem_body h n k d at_ ks ++ rest) < f -> elem f (elem_body h n k d at_ ks ++ rest) = Some (kid_x k t, rest).
  Lemma kid_text n sep k c : xml_kid h kc k c ->
    (exists d at_ ks, c = Node d (at_ ++ ks) /\ attr_part at_ /\ ~ In 0%N d /\ (h = true -> neat d) /\ (forall k c, In (k, c) ks -> xml_kid h kc k c) /\ xml_name k /\
       write_kid h n sep (k, c) = xindent h n ++ xLT :: elem_body h n k d at_ ks ++ xnl h) \/
    (exists v, k = XMLCOMMENT /\ c = Node v [] /\ kc = true /\ (forall a b, v <> a ++ str "-->" ++ b) /\ write_kid h n sep (k, c) = xindent h n ++ xLT :: str "!--" ++ v ++ str "-->" ++ xnl h).
  Proof using.
    intros K. destruct (xml_kid_key _ _ _ _ K) as [E1 E2]. destruct K as [k c NK [d at_ ks Z T A KS] | v KC Z NO].
    - left. exists d, at_, ks. do 6 (split; [now auto|]). unfold write_kid. cbn [fst snd]. rewrite E1, E2, name_not_comment by auto. now apply (write_elem_body h kc).
    - right. exists v. do 4 (split; [now auto|]). reflexivity.
  Qed.
  Lemma elem_body_head n k d at_ ks rest : xml_name k -> exists c s, elem_body h n k d at_ ks ++ rest = c :: s /\ c <> 47%N /\ forall nc, p_special nc (c :: s) = None.
  Proof using.
    intros (NE & W & NB). unfold elem_body. destruct k as [|c k]; [congruence|]. cbn [app]. eexists _, _. split; [reflexivity|]. cbn [hd] in NB.
    assert (C47 : c <> 47%N) by (intros ->; apply (W 47%N); cbn; tauto). split; [exact C47|]. assert (C63 : c <> 63%N) by (intros ->; apply (W 63%N); cbn; tauto).
    intros nc. unfold p_special. clear - NB C63. repeat match goal with |- context[match ?x with _ => _ end] => destruct x; try reflexivity; try congruence end.
  Qed.
  Lemma kids_read l : (forall k c, In (k, c) l -> xml_kid h kc k c /\ reads c) -> forall n sep w tail xs r, wsok h w ->
    (forall w' f, wsok h w' -> length (w' ++ tail) < f -> contents f (w' ++ tail) = Some (xs, r)) ->
    forall f, length (w ++ flat_map (write_kid h n sep) l ++ tail) < f -> contents f (w ++ flat_map (write_kid h n sep) l ++ tail) = Some (map kx l ++ xs, r).
  Proof using.
    induction l as [|[k c] l IH]; intros H n sep w tail xs r W T f L; cbn [flat_map map app] in *; [now apply T|].
    destruct (H k c (or_introl eq_refl)) as [K R]. assert (H' : forall k c, In (k, c) l -> xml_kid h kc k c /\ reads c) by (intros; apply H; now right).
    destruct (kid_text n sep k c K) as [(d & at_ & ks & C & A & Z & NT & KS & NK & E) | (v & -> & -> & KC & NO & E)].
    - set (rest := xnl h ++ flat_map (write_kid h n sep) l ++ tail) in *.
      replace (w ++ (write_kid h n sep (k, c) ++ flat_map (write_kid h n sep) l) ++ tail) with ((w ++ xindent h n) ++ xLT :: elem_body h n k d at_ ks ++ rest) in *
        by (rewrite E; unfold rest; rewrite <- !app_assoc; cbn [app]; rewrite <- !app_assoc; reflexivity).
      destruct (elem_body_head n k d at_ ks rest NK) as (x & s & EB & X47 & SP).
      destruct f; [lia|]. rewrite EB in *. rewrite contents_child by (auto using wsok_app, wsok_indent). rewrite SP.
      rewrite <- EB in *. rewrite app_length in L. cbn [length] in L.
      rewrite (R d at_ ks C A Z NT KS n k rest f NK) by lia. unfold rest. rewrite (IH H' n sep (xnl h) tail xs r wsok_nl T) ; [reflexivity|]. fold rest. rewrite !app_length in L. lia.
    - set (rest := xnl h ++ flat_map (write_kid h n sep) l ++ tail) in *.
      replace (w ++ (write_kid h n sep (XMLCOMMENT, Node v []) ++ flat_map (write_kid h n sep) l) ++ tail) with ((w ++ xindent h n) ++ xLT :: 33%N :: 45%N :: 45%N :: v ++ str "-->" ++ rest) in *
        by (rewrite E; unfold rest; change (str "!--") with [33; 45; 45]%N; rewrite <- !app_assoc; cbn [app]; rewrite <- !app_assoc; reflexivity).
      destruct f; [lia|]. rewrite contents_child by (auto using wsok_app, wsok_indent; discriminate).
      cbn [p_special]. change (starts (str "--") (45 :: 45 :: v ++ str "-->" ++ rest)%N) with true. cbn [skipn].
      rewrite upto_comment by auto. unfold rest.
      rewrite (IH H' n sep (xnl h) tail xs r wsok_nl T); [rewrite KC; reflexivity|]. fold rest. rewrite app_length in L. cbn [length] in L. rewrite !app_length in L. lia.
  Qed.
  Lemma elem_reads t : reads t.
  Proof using.
    induction t as [d0 ks0 IH] using ptree_ind'. intros d at_ ks EQ A Z NT KS n k rest f NK L. injection EQ as -> ->.
    rewrite (kid_x_elem h kc k d at_ ks NK A KS). destruct f; [lia|]. pose proof NK as (NE & W & _).
    assert (AT : forall k c, In (k, c) (attr_kids at_) -> xml_attr_name k).
    { destruct A as [-> |(a & -> & _ & HA)]; cbn; [intros ? ? []|]. intros k' c' I. exact (proj1 (HA k' c' I)). }
    set (q := if is_nil d && is_nil ks then [xSL; xGT]
         else xGT :: (if is_nil ks then [] else xnl h) ++ (if is_nil d then [] else write_text h (S n) (negb (is_nil ks) && h) d) ++
              flat_map (write_kid h (S n) (negb (is_nil ks) && h)) ks ++ (if is_nil ks then [] else xindent h n) ++ [xLT; xSL] ++ k ++ [xGT]) in *.
    assert (EB : elem_body h n k d at_ ks ++ rest = k ++ flat_map write_attr (attr_kids at_) ++ q ++ rest) by (unfold elem_body; fold q; rewrite <- !app_assoc; reflexivity).
    rewrite EB in *. assert (Q : exists e r, q ++ rest = e :: r /\ (e = xGT \/ e = xSL)) by (unfold q; destruct (is_nil d && is_nil ks); cbn [app]; eauto).
    destruct Q as (e & r & QE & QH). rewrite p_elem_S, xspan_app.
    2: exact (without_char name_char _ k name_forb W).
    2: { rewrite QE. destruct (attr_kids at_) as [|[k' c'] l]; cbn; [destruct QH as [-> | ->]; reflexivity | reflexivity]. }
    destruct k as [|k0 k]; [congruence|]. cbv beta iota. set (key := k0 :: k) in *.
    rewrite QE in *. rewrite p_attrs_ok by (auto; lia).
    destruct (is_nil d && is_nil ks) eqn:EN.
    - apply andb_prop in EN as [E1 E2]. destruct d; [|discriminate]. destruct ks; [|discriminate]. unfold q in QE. cbn [app] in QE. injection QE as <- <-. reflexivity.
    - unfold q in QE. cbn [app] in QE. injection QE as <- QR. cbn [N.eqb Pos.eqb xGT].
      set (sep := negb (is_nil ks) && h) in *. set (wi := if is_nil ks then [] else xindent h n) in *. set (w0 := if is_nil ks then [] else xnl h) in *.
      assert (WI : wsok h wi) by (unfold wi; destruct (is_nil ks); auto using wsok_nil, wsok_indent). assert (W0 : wsok h w0) by (unfold w0; destruct (is_nil ks); auto using wsok_nil, wsok_nl).
      set (tail := wi ++ [xLT; xSL] ++ key ++ xGT :: rest).
      assert (TL : forall w' f, wsok h w' -> length (w' ++ tail) < f -> contents f (w' ++ tail) = Some ([], rest)).
      { intros w' g W' LG. unfold tail. rewrite app_assoc. apply contents_close; auto using wsok_app. lia. }
      assert (KL : forall k c, In (k, c) ks -> xml_kid h kc k c /\ reads c).
      { intros k' c' I. split; [auto|]. rewrite Forall_forall in IH. apply (IH (k', c')). apply in_or_app. now right. }
      assert (R0 : r = w0 ++ (if is_nil d then [] else write_text h (S n) sep d) ++ flat_map (write_kid h (S n) sep) ks ++ tail).
      { rewrite <- QR. unfold tail. cbn [app]. repeat (rewrite <- ?app_assoc; cbn [app]). reflexivity. }
      assert (LR : length r < f). { rewrite !app_length in L. cbn [length] in L. lia. }
      enough (CT : contents f r = Some (text_x d ++ map kx ks, rest)) by (rewrite CT; reflexivity).
      destruct (is_nil d) eqn:ED; unfold text_x; rewrite ED.
      + rewrite R0 in *. cbn [app] in *. rewrite (kids_read ks KL (S n) sep w0 tail [] rest W0 TL f LR). now rewrite app_nil_r.
      + assert (ND : d <> []) by (destruct d; discriminate).
        assert (HD : exists w2 s, flat_map (write_kid h (S n) sep) ks ++ tail = w2 ++ xLT :: s /\ wsok h w2).
        { destruct ks as [|[k' c'] ks']; [exists wi, (xSL :: key ++ xGT :: rest); split; [reflexivity | exact WI]|]. cbn [flat_map].
          destruct (kid_text (S n) sep k' c' (KS k' c' (or_introl eq_refl))) as [(d1 & a1 & ks1 & _ & _ & _ & _ & _ & _ & E) | (v & _ & _ & _ & _ & E)]; rewrite E; rewrite <- !app_assoc; cbn [app]; eauto using wsok_indent. }
        destruct HD as (w2 & s & HE & W2).
        assert (WT : exists wa wb, write_text h (S n) sep d = wa ++ encode d ++ wb /\ wsok h wa /\ wsok h wb).
        { unfold write_text. destruct sep eqn:SE; [|exists [], []; rewrite app_nil_r; auto using wsok_nil]. exists (xindent h (S n)), [10%N]. split; [reflexivity|]. split; [apply wsok_indent|].
          unfold sep in SE. apply andb_prop in SE as [_ ->]. reflexivity. }
        destruct WT as (wa & wb & WE & WA & WB). rewrite R0 in *. rewrite WE, HE in *. repeat rewrite <- app_assoc in *.
        rewrite (app_assoc w0), (app_assoc wb) in *. cbn [app]. destruct f; [lia|]. apply contents_text; auto using wsok_app.
        rewrite <- (contents_ws f w2 s W2), <- HE. rewrite <- (app_nil_r (map kx ks)). change (flat_map (write_kid h (S n) sep) ks ++ tail) with ([] ++ flat_map (write_kid h (S n) sep) ks ++ tail).
        apply (kids_read ks KL (S n) sep [] tail [] rest wsok_nil TL). cbn [app]. rewrite HE. rewrite !app_length in LR. destruct (encode_head d ND) as (x & y & EE & _). rewrite EE in LR. rewrite app_length. cbn [length] in LR |- *. lia.
  Qed.
End Parse.
Lemma build_eq pt x : build pt x =
  match x with
  | XElem name a ks => add_kid pt name (fold_left build ks (Node [] (match a with [] => [] | _ => [(XMLATTR, Node [] (map (fun p => (fst p, Node (snd p) [])) a))] end)))
  | XData v => Node (pdata pt ++ v) (pkids pt)
  | XComment v => add_kid pt XMLCOMMENT (Node v [])
  end.
Proof. destruct x; reflexivity. Qed.
Lemma build_kids h kc ks : (forall k c, In (k, c) ks -> xml_kid h kc k c /\ forall pt, build pt (kid_x k c) = add_kid pt k c) ->
  forall d l, fold_left build (map kx ks) (Node d l) = Node d (l ++ ks).
Proof.
  induction ks as [|[k c] ks IH]; intros H d l; cbn [map fold_left]; [now rewrite app_nil_r|]. unfold kx at 2. cbn [fst snd]. rewrite (proj2 (H k c (or_introl eq_refl))).
  unfold add_kid. cbn [pdata pkids]. rewrite IH by (intros; apply H; now right). rewrite <- app_assoc. reflexivity.
Qed.
Lemma build_kid h kc t : forall k, xml_kid h kc k t -> forall pt, build pt (kid_x k t) = add_kid pt k t.
Proof.
  induction t as [d0 ks0 IH] using ptree_ind'. intros k K pt. remember (Node d0 ks0) as t eqn:T. destruct K as [k t NK [d at_ ks Z NT A KS] | v KC Z NO].
  - rewrite (kid_x_elem h kc k d at_ ks NK A KS). rewrite build_eq. f_equal. injection T as <- <-. rewrite fold_left_app.
    assert (KB : forall l, fold_left build (map kx ks) (Node d l) = Node d (l ++ ks)).
    { apply (build_kids h kc). intros k' c' I. split; [auto|]. rewrite Forall_forall in IH. apply (IH (k', c')); [apply in_or_app; now right | auto]. }
    assert (AE : match map (fun p => (fst p, pdata (snd p))) (attr_kids at_) with [] => [] | _ => [(XMLATTR, Node [] (map (fun p => (fst p, Node (snd p) [])) (map (fun p => (fst p, pdata (snd p))) (attr_kids at_))))] end = at_).
    { destruct A as [-> |(a & -> & NE & HA)]; [reflexivity|]. cbn [attr_kids pkids]. transitivity [(XMLATTR, Node [] (map (fun p => (fst p, Node (snd p) [])) (map (fun p => (fst p, pdata (snd p))) a)))]; [destruct a; [congruence | reflexivity]|].
      do 3 f_equal. rewrite map_map. cbn [fst snd]. rewrite <- (map_id a) at 2. apply map_ext_in. intros [k' c'] I. destruct (HA k' c' I) as (_ & v & -> & _). reflexivity. }
    rewrite AE. unfold text_x. destruct (is_nil d) eqn:D; [destruct d; [|discriminate]; apply KB|]. cbn [fold_left]. rewrite build_eq. cbn [pdata pkids app]. apply KB.
  - reflexivity.
Qed.
Lemma doc_read h kc l : (forall k c, In (k, c) l -> xml_kid h kc k c) -> forall w sep f, forallb xws w = true -> length (w ++ flat_map (write_kid h 0 sep) l) < f ->
  p_doc h (negb kc) f (w ++ flat_map (write_kid h 0 sep) l) = Some (map kx l).
Proof.
  assert (NW : forallb xws (xnl h) = true) by (destruct h; reflexivity).
  induction l as [|[k c] l IH]; intros H w sep f W L; cbn [flat_map map] in *.
  - destruct f; [lia|]. cbn [p_doc]. rewrite xskip_ws by auto. reflexivity.
  - destruct f; [lia|]. pose proof (H k c (or_introl eq_refl)) as K. assert (H' : forall k c, In (k, c) l -> xml_kid h kc k c) by (intros; apply H; now right).
    destruct (kid_text h kc 0 sep k c K) as [(d & at_ & ks & C & A & Z & NT & KS & NK & E) | (v & -> & -> & KC & NO & E)]; change (xindent h 0) with (if h then [] else [] : bytes) in E; replace (if h then [] else [] : bytes) with ([] : bytes) in E by (destruct h; reflexivity); cbn [app] in E.
    + set (rest := xnl h ++ flat_map (write_kid h 0 sep) l) in *.
      replace (w ++ write_kid h 0 sep (k, c) ++ flat_map (write_kid h 0 sep) l) with (w ++ xLT :: elem_body h 0 k d at_ ks ++ rest) in *
        by (rewrite E; unfold rest; cbn [app]; rewrite <- !app_assoc; reflexivity).
      destruct (elem_body_head h 0 k d at_ ks rest NK) as (x & s & EB & X47 & SP). cbn [p_doc]. rewrite xskip_ws by (auto; reflexivity). rewrite N.eqb_refl.
      rewrite EB, SP, <- EB. rewrite (elem_reads h kc c d at_ ks C A Z NT KS 0 k rest) by (auto; lia). unfold rest. rewrite IH; auto.
      fold rest. rewrite !app_length in L. cbn [length] in L. rewrite app_length in L. lia.
    + set (rest := xnl h ++ flat_map (write_kid h 0 sep) l) in *.
      replace (w ++ write_kid h 0 sep (XMLCOMMENT, Node v []) ++ flat_map (write_kid h 0 sep) l) with (w ++ xLT :: 33%N :: 45%N :: 45%N :: v ++ str "-->" ++ rest) in *
        by (rewrite E; unfold rest; change (str "!--") with [33; 45; 45]%N; cbn [app]; rewrite <- !app_assoc; reflexivity).
      cbn [p_doc]. rewrite xskip_ws by (auto; reflexivity). rewrite N.eqb_refl. cbn [p_special]. change (starts (str "--") (45 :: 45 :: v ++ str "-->" ++ rest)%N) with true. cbn [skipn].
      rewrite upto_comment by auto. unfold rest. rewrite IH; auto; [rewrite KC; reflexivity|].
      fold rest. rewrite !app_length in L. cbn [length] in L. rewrite !app_length in L. lia.
Qed.
(** ** No NUL is written *)
Definition no0 (s : bytes) : Prop := ~ In 0%N s.
Ltac n0 := unfold no0; cbn; intuition discriminate.
Lemma no0_app a b : no0 a -> no0 b -> no0 (a ++ b).
Proof. intros A B I. apply in_app_or in I as [I|I]; auto. Qed.
Lemma no0_cons c s : c <> 0%N -> no0 s -> no0 (c :: s).
Proof. intros A B [I|I]; auto. Qed.
Lemma no0_nil : no0 []. Proof. intros []. Qed.
Lemma no0_flat {A} (f : A -> bytes) l : (forall x, In x l -> no0 (f x)) -> no0 (flat_map f l).
Proof. intros H I. apply in_flat_map in I as (x & I & J). exact (H x I J). Qed.
Lemma no0_encode s : no0 s -> no0 (encode s).
Proof.
  intros H. unfold encode. destruct s as [|c s]; auto. destruct (forallb _ _); [apply no0_app; [n0 | intros I; apply H; now right]|].
  apply no0_flat. intros x I J. assert (X : x <> 0%N) by (intros ->; exact (H I)).
  unfold enc_char in J. repeat match type of J with context[match ?y with _ => _ end] => destruct y end; cbn in J; intuition congruence.
Qed.
Lemma no0_indent h n : no0 (xindent h n).
Proof. unfold xindent. destruct h; [|exact no0_nil]. intros I. apply repeat_spec in I. discriminate. Qed.
Lemma no0_nl h : no0 (xnl h).
Proof. unfold xnl. destruct h; n0. Qed.
Lemma no0_name k : xml_name k -> no0 k. Proof. intros (_ & W & _). apply W. cbn. tauto. Qed.
Lemma no0_kid h kc sep t : forall n k, xml_kid h kc k t -> no0 (write_kid h n sep (k, t)).
Proof.
  revert sep. induction t as [d0 ks0 IH] using ptree_ind'. intros sep n k K.
  destruct (kid_text h kc n sep k _ K) as [(d & at_ & ks & C & A & Z & NT & KS & NK & E) | (v & -> & C & KC & NO & E)]; rewrite E; clear E.
  - injection C as -> ->. apply no0_app; [apply no0_indent|]. apply no0_cons; [discriminate|]. apply no0_app; [|apply no0_nl]. unfold elem_body. apply no0_app; [now apply no0_name|].
    apply no0_app.
    { apply no0_flat. intros [k' c'] I. destruct A as [-> |(a & -> & _ & HA)]; [contradiction|]. cbn [attr_kids pkids] in I. destruct (HA k' c' I) as [[_ W] (v & -> & V)]. unfold write_attr. cbn [fst snd pdata].
      apply no0_cons; [discriminate|]. apply no0_app; [apply W; cbn; tauto|]. apply no0_app; [n0|]. apply no0_app; [now apply no0_encode | n0]. }
    destruct (is_nil d && is_nil ks); [n0|]. apply no0_cons; [discriminate|]. apply no0_app; [destruct (is_nil ks); auto using no0_nil, no0_nl|].
    apply no0_app; [destruct (is_nil d); [exact no0_nil|]; unfold write_text; destruct (negb (is_nil ks) && h); [|now apply no0_encode]; apply no0_app; [apply no0_indent|]; apply no0_app; [now apply no0_encode | n0]|].
    apply no0_app; [|apply no0_app; [destruct (is_nil ks); auto using no0_nil, no0_indent|]; apply no0_cons; [discriminate|]; apply no0_cons; [discriminate|]; apply no0_app; [now apply no0_name | n0]].
    apply no0_flat. intros [k' c'] I. rewrite Forall_forall in IH. apply (IH (k', c')); [apply in_or_app; now right | now apply KS].
  - injection C as -> ->. inversion K; subst.
    + exfalso. match goal with X : xml_name XMLCOMMENT |- _ => pose proof (name_not_comment _ X) as Q end. rewrite bytes_eqb_refl in Q. discriminate.
    + apply no0_app; [apply no0_indent|]. apply no0_cons; [discriminate|]. apply no0_app; [n0|]. apply no0_app; [assumption|]. apply no0_app; [n0 | apply no0_nl].
Qed.
Lemma cut_no0 s : no0 s -> cut_nul s = s.
Proof.
  intros H. unfold cut_nul. rewrite <- (app_nil_r s) at 1. rewrite xspan_app; [reflexivity | | exact I]. intros c I0. apply Bool.negb_true_iff, N.eqb_neq. intros ->. exact (H I0).
Qed.
(** Saving a tree and loading it again, with the same settings, gives the same tree. *)
Theorem xml_roundtrip : forall h ignoreComments t old, xml_tree h (negb ignoreComments) t ->
  loadXml h ignoreComments old (saveXml h t) = (t, Ok tt).
Proof.
  intros h ic t old [D K]. unfold loadXml, read_xml, saveXml, write_xml. destruct t as [d ks]. cbn [pdata pkids] in *. subst d. cbn [is_nil app].
  set (sep := has_elements ks && h). rewrite cut_no0.
  2: { apply no0_app; [unfold xml_decl; n0|]. apply no0_flat. intros [k c] I. apply (no0_kid h (negb ic)). auto. }
  set (body := flat_map (write_kid h 0 sep) ks).
  assert (B : skip_bom (xml_decl ++ body) = xml_decl ++ body) by reflexivity. rewrite B.
  assert (P : forall f, p_doc h ic (S f) (xml_decl ++ body) = p_doc h ic f ([10%N] ++ body)).
  { intros f. transitivity (match p_doc h ic f ([10%N] ++ body) with Some l => Some l | None => None end); [reflexivity|]. destruct (p_doc h ic f ([10%N] ++ body)); reflexivity. }
  rewrite P. unfold body. rewrite <- (Bool.negb_involutive ic). rewrite doc_read; auto; [|rewrite !app_length; cbn [length]; change (length xml_decl) with 39; lia].
  unfold pempty. rewrite (build_kids h (negb ic)); [reflexivity|]. intros k c I. split; auto. intros pt. apply (build_kid h (negb ic)). auto.
Qed.

(** ** Loading, saving and loading again *)
(** what the parser returns *)
Inductive xgood (nc : bool) : xnode -> Prop :=
| xgood_elem : forall k a ks, xml_name k -> (forall k' v, In (k', v) a -> xml_attr_name k') -> (forall x, In x ks -> xgood nc x) -> xgood nc (XElem k a ks)
| xgood_data : forall v, xgood nc (XData v)
| xgood_comment : forall v, nc = false -> (forall a b, v <> a ++ str "-->" ++ b) -> xgood nc (XComment v).
Lemma name_char_without k : (forall c, In c k -> name_char c = true) -> without [32; 9; 10; 13; 47; 62; 63; 0]%N k.
Proof. intros H c I J. specialize (H c J). cbn in I. repeat (destruct I as [<- |I]; [discriminate H|]). contradiction. Qed.
Lemma attr_char_without k : (forall c, In c k -> attr_char c = true) -> without [32; 9; 10; 13; 47; 60; 62; 61; 63; 33; 0]%N k.
Proof. intros H c I J. specialize (H c J). cbn in I. repeat (destruct I as [<- |I]; [discriminate H|]). contradiction. Qed.
Lemma p_attrs_good f s a r : p_attrs f s = Some (a, r) -> forall k v, In (k, v) a -> xml_attr_name k.
Proof.
  revert s a r. induction f as [|f IH]; intros s a r H; [discriminate|]. cbn [p_attrs] in H. destruct (xspan attr_char s) as [name q] eqn:E.
  apply xspan_spec in E as (_ & A & _). destruct name as [|c name]; [injection H as <- _; intros ? ? []|].
  destruct (xskip q) as [|e r1]; [discriminate|]. destruct (N.eqb e 61); [|discriminate]. destruct (xskip r1) as [|qu r2]; [discriminate|]. destruct (N.eqb qu 34 || N.eqb qu 39); [|discriminate].
  destruct (expand false (N.eqb qu) (S (length r2)) r2) as [[v [|x r3]]|]; try discriminate. destruct (p_attrs f (xskip r3)) as [[l r4]|] eqn:P; [|discriminate]. injection H as <- _.
  intros k v' [X|I]; [injection X as <- _; split; [discriminate | now apply attr_char_without]|]. eapply IH; eassumption.
Qed.
Lemma special_good nc s x r : p_special nc s = Some (Some (Some x, r)) -> xgood nc x.
Proof.
  unfold p_special. destruct s as [|c s]; [discriminate|]. intros H.
  destruct (N.eq_dec c 63) as [-> |N1]; [destruct (upto (str "?>") s) as [[]|]; discriminate|].
  destruct (N.eq_dec c 33) as [-> |N2].
  - destruct (starts (str "--") s).
    + destruct (upto (str "-->") (skipn 2 s)) as [[v r']|] eqn:U; [|discriminate]. destruct nc; [discriminate|]. injection H as <- _. apply upto_spec in U as [_ U]; [|discriminate]. now constructor.
    + destruct (starts (str "[CDATA[") s).
      * destruct (upto (str "]]>") (skipn 7 s)) as [[v r']|]; [|discriminate]. injection H as <- _. constructor.
      * destruct (starts (str "DOCTYPE") s && _); [destruct (doctype 0 (skipn 8 s)); discriminate|]. destruct (upto [xGT] s) as [[]|]; discriminate.
  - exfalso. clear - H N1 N2. repeat match type of H with context[match ?x with _ => _ end] => destruct x; try discriminate; try congruence end.
Qed.
Lemma special_none nc s : p_special nc s = None -> hd 0%N s <> 33%N.
Proof. intros H E. destruct s as [|c s]; [discriminate E|]. cbn in E. subst c. discriminate H. Qed.
Lemma p_contents_S h nc f s : p_contents h nc (S f) s =
  let more (x : option xnode) (r : bytes) :=
    match p_contents h nc f r with Some (ks, r') => Some (match x with Some y => y :: ks | None => ks end, r') | None => None end in
  let s1 := if h then xskip s else s in
  match s1 with
  | [] => None
  | c :: r =>
      if N.eqb c xLT then
        if starts [xSL] r then
          match xskip (snd (xspan name_char (skipn 1 r))) with
          | e :: r1 => if N.eqb e 62 then Some ([], r1) else None
          | [] => None
          end
        else match p_special nc r with
             | Some (Some (x, r1)) => more x r1
             | Some None => None
             | None => match p_elem h nc f r with Some (x, r1) => more (Some x) r1 | None => None end
             end
      else match p_data h s1 with Some (v, r1) => more (Some (XData v)) r1 | None => None end
  end.
Proof. reflexivity. Qed.
Lemma parse_good h nc f : (forall s x r, p_special nc s = None -> p_elem h nc f s = Some (x, r) -> xgood nc x) /\ (forall s ks r, p_contents h nc f s = Some (ks, r) -> forall x, In x ks -> xgood nc x).
Proof.
  induction f as [|f [IE IC]]; [split; discriminate|]. split.
  - intros s x r SP H. rewrite p_elem_S in H. destruct (xspan name_char s) as [name q] eqn:E. apply xspan_spec in E as (ES & A & _). destruct name as [|c name]; [discriminate|].
    destruct (p_attrs (S (length q)) (xskip q)) as [[a [|e r1]]|] eqn:PA; try discriminate.
    assert (NM : xml_name (c :: name)). { split; [discriminate|]. split; [now apply name_char_without|]. apply special_none in SP. rewrite ES in SP. exact SP. }
    destruct (N.eqb e 62).
    + destruct (p_contents h nc f r1) as [[ks r2]|] eqn:PC; [|discriminate]. injection H as <- _. constructor; [exact NM | eapply p_attrs_good; eassumption | eapply IC; eassumption].
    + destruct (N.eqb e 47); [|discriminate]. destruct r1 as [|e1 r2]; [discriminate|]. destruct (N.eqb e1 62); [|discriminate]. injection H as <- _. constructor; [exact NM | eapply p_attrs_good; eassumption | intros ? []].
  - intros s ks r H. rewrite p_contents_S in H. cbv zeta in H. destruct (if h then xskip s else s) as [|c q]; [discriminate|]. destruct (N.eqb c xLT).
    + destruct (starts [xSL] q).
      * destruct (xskip _) as [|e r1]; [discriminate|]. destruct (N.eqb e 62); [|discriminate]. injection H as <- _. intros ? [].
      * destruct (p_special nc q) as [[[x r1]|]|] eqn:SP; [| discriminate |].
        -- destruct (p_contents h nc f r1) as [[l r']|] eqn:PC; [|discriminate]. injection H as <- _. destruct x as [y|]; [|eapply IC; eassumption].
           intros z [<- |I]; [eapply special_good; eassumption | eapply IC; eassumption].
        -- destruct (p_elem h nc f q) as [[x r1]|] eqn:PE; [|discriminate]. destruct (p_contents h nc f r1) as [[l r']|] eqn:PC; [|discriminate]. injection H as <- _.
           intros z [<- |I]; [eapply IE; eassumption | eapply IC; eassumption].
    + destruct (p_data h (c :: q)) as [[v r1]|]; [|discriminate]. destruct (p_contents h nc f r1) as [[l r']|] eqn:PC; [|discriminate]. injection H as <- _.
      intros z [<- |I]; [constructor | eapply IC; eassumption].
Qed.
Lemma doc_good h nc f s l : p_doc h nc f s = Some l -> forall x, In x l -> xgood nc x.
Proof.
  revert s l. induction f as [|f IH]; intros s l H; [discriminate|]. cbn [p_doc] in H. destruct (xskip s) as [|c q]; [injection H as <-; intros ? []|].
  destruct (N.eqb c xLT); [|discriminate]. destruct (p_special nc q) as [[[x r1]|]|] eqn:SP; [| discriminate |].
  - destruct (p_doc h nc f r1) as [l'|] eqn:PD; [|discriminate]. injection H as <-. destruct x as [y|]; [|eapply IH; eassumption]. intros z [<- |I]; [eapply special_good; eassumption | eapply IH; eassumption].
  - destruct (p_elem h nc (S (length q)) q) as [[x r1]|] eqn:PE; [|discriminate]. destruct (p_doc h nc f r1) as [l'|] eqn:PD; [|discriminate]. injection H as <-.
    intros z [<- |I]; [eapply (proj1 (parse_good h nc _)); eassumption | eapply IH; eassumption].
Qed.
Definition elem_tree (a : list (bytes * bytes)) (ks : list xnode) : ptree :=
  fold_left build ks (Node [] (match a with [] => [] | _ => [(XMLATTR, Node [] (map (fun p => (fst p, Node (snd p) [])) a))] end)).
Lemma fold_build ks : forall d l, exists d' l', fold_left build ks (Node d l) = Node (d ++ d') (l ++ l') /\
  forall k c, In (k, c) l' -> (exists a ks', In (XElem k a ks') ks /\ c = elem_tree a ks') \/ (exists v, In (XComment v) ks /\ k = XMLCOMMENT /\ c = Node v []).
Proof.
  induction ks as [|x ks IH]; intros d l; cbn [fold_left].
  - exists [], []. rewrite !app_nil_r. split; [reflexivity | intros ? ? []].
  - rewrite build_eq. destruct x as [k a ks0 | v | v]; unfold add_kid; cbn [pdata pkids].
    + destruct (IH d (l ++ [(k, elem_tree a ks0)])) as (d' & l' & E & H). exists d', ((k, elem_tree a ks0) :: l'). split; [rewrite <- app_assoc in E; exact E|].
      intros k' c' [X|I]; [injection X as <- <-; left; exists a, ks0; split; [now left | reflexivity]|].
      destruct (H k' c' I) as [(a' & ks' & I' & E')|(v' & I' & E')]; [left; exists a', ks' | right; exists v']; (split; [now right | exact E']).
    + destruct (IH (d ++ v) l) as (d' & l' & E & H). exists (v ++ d'), l'. split; [rewrite <- app_assoc in E; exact E|].
      intros k' c' I. destruct (H k' c' I) as [(a' & ks' & I' & E')|(v' & I' & E')]; [left; exists a', ks' | right; exists v']; (split; [now right | exact E']).
    + destruct (IH d (l ++ [(XMLCOMMENT, Node v [])])) as (d' & l' & E & H). exists d', ((XMLCOMMENT, Node v []) :: l'). split; [rewrite <- app_assoc in E; exact E|].
      intros k' c' [X|I]; [injection X as <- <-; right; exists v; split; [now left | auto]|].
      destruct (H k' c' I) as [(a' & ks' & I' & E')|(v' & I' & E')]; [left; exists a', ks' | right; exists v']; (split; [now right | exact E']).
Qed.
(** no value with NUL; in human readable mode only neat ones *)
Definition clean (h : bool) (k : bytes) (c : ptree) : Prop := ~ In 0%N (pdata c) /\ (h = true -> k <> str "<xmlcomment>" -> neat (pdata c)).
Lemma good_tree h nc x : xgood nc x -> match x with
  | XElem k a ks => everywhere (clean h) (elem_tree a ks) -> clean h k (elem_tree a ks) -> xml_node h (negb nc) (elem_tree a ks)
  | _ => True end.
Proof.
  induction 1 as [k a ks NK NA KS IH | v | v NC NO]; [|exact I|exact I]. intros EV [Z NT]. unfold elem_tree in *.
  set (at_ := match a with [] => [] | _ => [(XMLATTR, Node [] (map (fun p => (fst p, Node (snd p) [])) a))] end) in *.
  destruct (fold_build ks [] at_) as (d' & l' & E & H). rewrite E in *. cbn [app pdata] in *.
  assert (CL := everywhere_inv _ _ _ EV).
  constructor; auto.
  - intros Hh. apply NT; auto. intros ->. now apply name_not_comment in NK.
  - unfold at_ in *. destruct a as [|p a]; [now left|]. right. eexists. split; [reflexivity|]. split; [discriminate|].
    intros k' c' I0. apply in_map_iff in I0 as ((k1 & v1) & X & I0). cbn [fst snd] in X. injection X as <- <-. split; [eapply NA; eassumption|]. exists v1. split; [reflexivity|].
    destruct (CL XMLATTR _ (or_introl eq_refl)) as [_ EA]. apply (everywhere_inv _ _ _ EA k1 (Node v1 [])). apply in_map_iff. exists (k1, v1). auto.
  - intros k' c' I0. destruct (CL k' c' (in_or_app _ _ _ (or_intror I0))) as [C1 C2]. destruct (H k' c' I0) as [(a' & ks' & I' & ->)|(v & I' & -> & ->)].
    + pose proof (KS _ I') as G. inversion G; subst. constructor; auto. apply (IH _ I'); auto.
    + pose proof (KS _ I') as G. inversion G; subst. apply xml_comment; auto. exact (proj1 C1).
Qed.
(** A tree that was loaded from any XML file, without NUL characters and without data outside of the elements (and, in human
    readable mode, whose values are neat), is saved and loaded back exactly. *)
Theorem xml_reload : forall h ignoreComments file t t0 old, loadXml h ignoreComments t0 file = (t, Ok tt) ->
  pdata t = [] -> everywhere (clean h) t -> loadXml h ignoreComments old (saveXml h t) = (t, Ok tt).
Proof.
  intros h ic file t t0 old L D C. apply xml_roundtrip. unfold loadXml, read_xml in L. destruct (p_doc h ic _ _) as [l|] eqn:P; [|discriminate]. injection L as <-.
  pose proof (doc_good _ _ _ _ _ P) as G. split; [exact D|]. destruct (fold_build l [] []) as (d' & l' & E & H). unfold pempty in *. rewrite E in *. cbn [app pkids] in *.
  intros k c I0. destruct (everywhere_inv _ _ _ C k c I0) as [C1 C2]. destruct (H k c I0) as [(a' & ks' & I' & ->)|(v & I' & -> & ->)].
  - pose proof (G _ I') as GX. pose proof (good_tree h ic _ GX) as GT. inversion GX; subst. constructor; auto.
  - pose proof (G _ I') as GX. inversion GX; subst. apply xml_comment; auto. exact (proj1 C1).
Qed.
(** A file that does not parse leaves the tree unchanged. *)
Theorem xml_fails : forall h ic t file t' r, loadXml h ic t file = (t', r) -> r <> Ok tt -> t' = t /\ r = ParseError.
Proof. intros h ic t file t' r. unfold loadXml. destruct (read_xml h ic file); intros H N; injection H as <- <-; [congruence | auto]. Qed.

(** ** What XML cannot hold *)
(** a key with a blank: saving succeeds, the file does not load *)
Theorem xml_key_refuted : exists t, forall h ic old, loadXml h ic old (saveXml h t) = (old, ParseError).
Proof. exists (Node [] [(str "my key", Node (str "1") [])]). intros [] [] old; vm_compute; reflexivity. Qed.
(** two blanks in a value become one in human readable mode; the value survives in the default mode *)
Theorem xml_blanks_refuted : exists t t', t <> t' /\ forall ic old, loadXml true ic old (saveXml true t) = (t', Ok tt) /\ loadXml false ic old (saveXml false t) = (t, Ok tt).
Proof.
  exists (Node [] [(str "a", Node (str "x  y") [])]), (Node [] [(str "a", Node (str "x y") [])]). split; [discriminate|]. intros [] old; split; vm_compute; reflexivity.
Qed.
(** a tree with a value at its root is saved to a file that does not load *)
Theorem xml_root_refuted : exists t, forall h ic old, loadXml h ic old (saveXml h t) = (old, ParseError).
Proof. exists (Node (str "1") [(str "a", Node (str "1") [])]). intros [] [] old; vm_compute; reflexivity. Qed.
(** saved in human readable mode and loaded in the default mode: values of inner nodes appear from nowhere *)
Theorem xml_mode_refuted : exists t t', t <> t' /\ forall ic old, loadXml false ic old (saveXml true t) = (t', Ok tt).
Proof.
  exists (Node [] [(str "a", Node [] [(str "b", Node (str "1") [])])]), (Node [] [(str "a", Node [10; 9; 10]%N [(str "b", Node (str "1") [])])]). split; [discriminate|]. intros [] old; vm_compute; reflexivity.
Qed.
(** comments are lost in the default setting and kept otherwise *)
Theorem xml_comments_refuted : exists t t', t <> t' /\ forall h old, loadXml h true old (saveXml h t) = (t', Ok tt) /\ loadXml h false old (saveXml h t) = (t, Ok tt).
Proof.
  exists (Node [] [(str "a", Node [] [(XMLCOMMENT, Node (str "note") []); (str "b", Node (str "1") [])])]), (Node [] [(str "a", Node [] [(str "b", Node (str "1") [])])]).
  split; [discriminate|]. intros [] old; split; vm_compute; reflexivity.
Qed.
(** A configuration with attributes and nested values meets the hypotheses in both modes. *)
Definition ex_xml : ptree :=
  Node [] [(str "robot", Node (str "main") [(str "<xmlattr>", Node [] [(str "id", Node (str "7 <") [])]); (str "gain", Node (str "0.5 & more") []); (str "gain", pempty)])].
Example ex_xml_ok : forall h kc, xml_tree h kc ex_xml.
Proof.
  intros h kc. split; [reflexivity|]. cbn. intros k c [X|[]]. injection X as <- <-. apply xml_element.
  { split; [discriminate|]. split; [|discriminate]. intros c I. cbn in I. repeat (destruct I as [<- |I]; [cbn; intuition discriminate|]). contradiction. }
  apply (xml_node_intro h kc (str "main") [(str "<xmlattr>", Node [] [(str "id", Node (str "7 <") [])])] [(str "gain", Node (str "0.5 & more") []); (str "gain", pempty)]).
  - cbn. intuition discriminate.
  - intros _. exists [str "main"]. split; [reflexivity|]. intros w [<- |[]]. split; [discriminate|]. intros c I. cbn in I. repeat (destruct I as [<- |I]; [cbn; intuition discriminate|]). contradiction.
  - right. eexists. split; [reflexivity|]. split; [discriminate|]. intros k c [X|[]]. injection X as <- <-. split.
    + split; [discriminate|]. intros c I. cbn in I. repeat (destruct I as [<- |I]; [cbn; intuition discriminate|]). contradiction.
    + eexists. split; [reflexivity|]. cbn. intuition discriminate.
  - assert (G : xml_name (str "gain")). { split; [discriminate|]. split; [|discriminate]. intros c I. cbn in I. repeat (destruct I as [<- |I]; [cbn; intuition discriminate|]). contradiction. }
    intros k c [X|[X|[]]]; injection X as <- <-; apply xml_element; auto.
    + apply (xml_node_intro h kc _ [] []); [cbn; intuition discriminate | | now left | intros ? ? []].
      intros _. exists [str "0.5"; str "&"; str "more"]. split; [reflexivity|]. intros w W. cbn [In] in W. destruct W as [<- |[<- |[<- |[]]]]; (split; [discriminate|]); intros c I; cbn in I; repeat (destruct I as [<- |I]; [cbn; intuition discriminate|]); contradiction.
    + apply (xml_node_intro h kc _ [] []); [cbn; auto | intros _; exists []; split; [reflexivity | intros ? []] | now left | intros ? ? []].
Qed.
