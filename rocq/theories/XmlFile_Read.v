(** C128: what loadXml makes of XML files in general: blanks, both kinds of quotes, character references, CDATA sections, comments, processing
    instructions, document types. *)
From Verif Require Import Bytes Strings_Model PTree_Model PTree_Proofs PTree_Update XmlFile_Model XmlFile_Props.
Open Scope nat_scope.

(** * Specification: XML files and the tree each stands for *)
Definition blanks (w : bytes) : Prop := forall c, In c w -> In c [32; 9; 10; 13]%N.
Definition blank_first (s : bytes) : Prop := exists c r, s = c :: r /\ In c [32; 9; 10; 13]%N.
(** UTF-8 (RFC 3629, surrogates not excluded) *)
Inductive utf8_of : N -> bytes -> Prop :=
| utf8_1 : forall a, (a < 128)%N -> utf8_of a [a]
| utf8_2 : forall a b, (2 <= a < 32)%N -> (b < 64)%N -> utf8_of (a * 64 + b)%N [192 + a; 128 + b]%N
| utf8_3 : forall a b c, (a < 16)%N -> (b < 64)%N -> (c < 64)%N -> (2048 <= (a * 64 + b) * 64 + c)%N -> utf8_of ((a * 64 + b) * 64 + c)%N [224 + a; 128 + b; 128 + c]%N
| utf8_4 : forall a b c d, (a < 5)%N -> (b < 64)%N -> (c < 64)%N -> (d < 64)%N -> (65536 <= ((a * 64 + b) * 64 + c) * 64 + d < 1114112)%N ->
    utf8_of (((a * 64 + b) * 64 + c) * 64 + d)%N [240 + a; 128 + b; 128 + c; 128 + d]%N.
(** digits: the characters and their values *)
Inductive digit_of : N -> byte -> N -> Prop :=
| digit_dec : forall b v, (v < 10)%N -> digit_of b (48 + v)%N v
| digit_up : forall v, (10 <= v < 16)%N -> digit_of 16 (65 + (v - 10))%N v
| digit_low : forall v, (10 <= v < 16)%N -> digit_of 16 (97 + (v - 10))%N v.
Inductive numeral (base : N) : bytes -> N -> Prop :=
| numeral_one : forall c v, digit_of base c v -> numeral base [c] v
| numeral_more : forall s u c v, numeral base s u -> digit_of base c v -> numeral base (s ++ [c]) (u * base + v).
Definition named : list (bytes * byte) :=
  [(str "&amp;", 38); (str "&apos;", 39); (str "&quot;", 34); (str "&gt;", 62); (str "&lt;", 60)]%N.
(** character data up to (excluding) the character [stop] and what it stands for; [norm]: a run of blanks stands for one blank *)
Inductive xtext (norm : bool) (stop : byte) : bytes -> bytes -> Prop :=
| xt_nil : xtext norm stop [] []
| xt_char : forall c r m, c <> stop -> c <> 38%N -> (norm = true -> ~ In c [32; 9; 10; 13]%N) -> xtext norm stop r m -> xtext norm stop (c :: r) (c :: m)
| xt_blanks : forall c w r m, norm = true -> blanks (c :: w) -> ~ blank_first r -> xtext norm stop r m -> xtext norm stop (c :: w ++ r) (32%N :: m)
| xt_named : forall e c r m, In (e, c) named -> xtext norm stop r m -> xtext norm stop (e ++ r) (c :: m)
| xt_dec : forall ds u b r m, numeral 10 ds u -> utf8_of u b -> xtext norm stop r m -> xtext norm stop (str "&#" ++ ds ++ str ";" ++ r) (b ++ m)
| xt_hex : forall ds u b r m, numeral 16 ds u -> utf8_of u b -> xtext norm stop r m -> xtext norm stop (str "&#x" ++ ds ++ str ";" ++ r) (b ++ m).
Definition stripped (v v' : bytes) : Prop := v = v' ++ [32%N] \/ v' = v /\ forall x, v <> x ++ [32%N].
Inductive xattrs : bytes -> list (bytes * bytes) -> Prop :=
| xa_nil : xattrs [] []
| xa_cons : forall w k w1 w2 q raw v r l, w <> [] -> blanks w -> xml_attr_name k -> blanks w1 -> blanks w2 -> q = 34%N \/ q = 39%N -> xtext false q raw v -> xattrs r l ->
    xattrs (w ++ k ++ w1 ++ str "=" ++ w2 ++ [q] ++ raw ++ [q] ++ r) ((k, v) :: l).
(** the contents of an element *)
Inductive item := IText (v : bytes) | IElem (k : bytes) (t : ptree) | IComment (v : bytes) | INothing.
Fixpoint texts (l : list item) : bytes := match l with [] => [] | IText v :: r => v ++ texts r | _ :: r => texts r end.
Fixpoint nodes (kc : bool) (l : list item) : list (bytes * ptree) :=
  match l with
  | [] => []
  | IElem k t :: r => (k, t) :: nodes kc r
  | IComment v :: r => (if kc then [(str "<xmlcomment>", Node v [])] else []) ++ nodes kc r
  | _ :: r => nodes kc r
  end.
Definition attr_nodes (l : list (bytes * bytes)) : list (bytes * ptree) :=
  match l with [] => [] | _ => [(str "<xmlattr>", Node [] (map (fun p => (fst p, Node (snd p) [])) l))] end.
Definition the_element (kc : bool) (l : list (bytes * bytes)) (is : list item) : ptree := Node (texts is) (attr_nodes l ++ nodes kc is).
(** the text [v] does not contain [m] *)
Definition lacks (m v : bytes) : Prop := forall a b, v <> a ++ m ++ b.
(** comments, processing instructions *)
Inductive xmisc : bytes -> item -> Prop :=
| xm_comment : forall v, lacks (str "-->") v -> xmisc (str "<!--" ++ v ++ str "-->") (IComment v)
| xm_pi : forall v, lacks (str "?>") v -> xmisc (str "<?" ++ v ++ str "?>") INothing.
(** [h]: human readable: blanks at the ends of a text do not count and others are one blank *)
Section Grammar.
  Variables h kc : bool.
  Definition gap (w : bytes) : Prop := if h then blanks w else w = [].
  Inductive xelem : bytes -> bytes -> ptree -> Prop :=
  | xe_empty : forall k ra l w, xml_name k -> xattrs ra l -> blanks w -> xelem (str "<" ++ k ++ ra ++ w ++ str "/>") k (the_element kc l [])
  | xe_full : forall k ra l w rc is w', xml_name k -> xattrs ra l -> blanks w -> xcontent rc is -> blanks w' ->
      xelem (str "<" ++ k ++ ra ++ w ++ str ">" ++ rc ++ str "</" ++ k ++ w' ++ str ">") k (the_element kc l is)
  with xcontent : bytes -> list item -> Prop :=
  | xc_end : forall w, gap w -> xcontent w []
  | xc_text : forall w raw v v' r is, gap w -> raw <> [] -> (h = true -> ~ blank_first raw) -> xtext h 60 raw v -> (if h then stripped v v' else v' = v) ->
      (r = [] \/ exists s, r = 60%N :: s) -> xcontent r is -> xcontent (w ++ raw ++ r) (IText v' :: is)
  | xc_elem : forall w raw k t r is, gap w -> xelem raw k t -> xcontent r is -> xcontent (w ++ raw ++ r) (IElem k t :: is)
  | xc_misc : forall w raw i r is, gap w -> xmisc raw i -> xcontent r is -> xcontent (w ++ raw ++ r) (i :: is)
  | xc_cdata : forall w v r is, gap w -> lacks (str "]]>") v -> xcontent r is -> xcontent (w ++ str "<![CDATA[" ++ v ++ str "]]>" ++ r) (IText v :: is).
  (** a document type: brackets are balanced, outside of them there is no '>' *)
  Inductive bracketed : bytes -> Prop :=
  | br_nil : bracketed []
  | br_char : forall c r, c <> 91%N -> c <> 93%N -> bracketed r -> bracketed (c :: r)
  | br_in : forall a r, bracketed a -> bracketed r -> bracketed (str "[" ++ a ++ str "]" ++ r).
  Inductive dtd : bytes -> Prop :=
  | dtd_nil : dtd []
  | dtd_char : forall c r, c <> 91%N -> c <> 93%N -> c <> 62%N -> dtd r -> dtd (c :: r)
  | dtd_in : forall a r, bracketed a -> dtd r -> dtd (str "[" ++ a ++ str "]" ++ r).
  Inductive xdoc : bytes -> list item -> Prop :=
  | xd_end : forall w, blanks w -> xdoc w []
  | xd_elem : forall w raw k t r is, blanks w -> xelem raw k t -> xdoc r is -> xdoc (w ++ raw ++ r) (IElem k t :: is)
  | xd_misc : forall w raw i r is, blanks w -> xmisc raw i -> xdoc r is -> xdoc (w ++ raw ++ r) (i :: is)
  | xd_dtd : forall w c d r is, blanks w -> In c [32; 9; 10; 13]%N -> dtd d -> xdoc r is -> xdoc (w ++ str "<!DOCTYPE" ++ [c] ++ d ++ str ">" ++ r) (INothing :: is).
End Grammar.
Definition xml_file (h kc : bool) (file : bytes) (t : ptree) : Prop :=
  exists raw is, (file = raw \/ file = [239; 187; 191]%N ++ raw) /\ ~ In 0%N raw /\ ~ (exists s, raw = [239; 187; 191]%N ++ s) /\ xdoc h kc raw is /\ t = Node [] (nodes kc is).

(** * Proofs *)
Lemma blanks_forallb w : blanks w -> forallb xws w = true.
Proof. intros B. apply forallb_forall. intros c I. apply xws_in, B, I. Qed.
Lemma gap_wsok h w : gap h w -> wsok h w.
Proof. destruct h; cbn; [apply blanks_forallb | auto]. Qed.
Lemma not_blank c : ~ In c [32; 9; 10; 13]%N <-> xws c = false.
Proof. rewrite <- Bool.not_true_iff_false, xws_in. tauto. Qed.
(** the first occurrence of a mark whose last character occurs in it only there *)
Lemma starts_mark p e v r : ~ In e p -> starts (p ++ [e]) (v ++ (p ++ [e]) ++ r) = true -> v <> [] -> exists b, v = (p ++ [e]) ++ b.
Proof.
  intros NI H NE. apply starts_spec in H as (s & H). destruct (le_lt_dec (length (p ++ [e])) (length v)) as [L|L].
  - exists (skipn (length (p ++ [e])) v). pose proof (f_equal (firstn (length (p ++ [e]))) H) as F. rewrite firstn_app in F.
    replace (length (p ++ [e]) - length v) with 0 in F by lia. rewrite firstn_O, app_nil_r in F. rewrite (firstn_app (length (p ++ [e])) (p ++ [e]) s), Nat.sub_diag, firstn_all, firstn_O, app_nil_r in F.
    rewrite <- F at 1. symmetry. apply firstn_skipn.
  - exfalso. rewrite app_length in L. cbn [length] in L. assert (V : 0 < length v) by (destruct v; [congruence | cbn; lia]).
    pose proof (f_equal (fun l => nth_error l (length p)) H) as F. cbn beta in F.
    rewrite nth_error_app2 in F by lia. rewrite <- !app_assoc in F. rewrite nth_error_app1 in F by lia. rewrite (nth_error_app2 p) in F by lia.
    rewrite Nat.sub_diag in F. cbn in F. apply nth_error_In in F. contradiction.
Qed.
Lemma upto_mark p e v r : ~ In e p -> lacks (p ++ [e]) v -> upto (p ++ [e]) (v ++ (p ++ [e]) ++ r) = Some (v, r).
Proof.
  intros NI. induction v as [|c v IH]; intros H.
  - cbn [app]. assert (ST : starts (p ++ [e]) ((p ++ [e]) ++ r) = true) by apply starts_app. destruct ((p ++ [e]) ++ r) as [|x y] eqn:E; [destruct p; discriminate|].
    cbn [upto]. rewrite ST, <- E, skipn_app_len. reflexivity.
  - cbn [app upto]. destruct (starts (p ++ [e]) (c :: v ++ (p ++ [e]) ++ r)) eqn:E.
    + exfalso. destruct (starts_mark p e (c :: v) r NI E) as (b & B); [discriminate|]. apply (H [] b). exact B.
    + rewrite IH; [reflexivity|]. intros a b ->. apply (H (c :: a) b). reflexivity.
Qed.
(** numbers *)
Lemma digit_xdigit base c v : digit_of base c v -> xdigit c = Some v.
Proof.
  intros H. unfold xdigit. destruct H as [b v V | v V | v V].
  - replace ((48 <=? 48 + v) && (48 + v <=? 57))%N with true by (symmetry; apply andb_true_intro; split; apply N.leb_le; lia). f_equal. lia.
  - replace ((48 <=? 65 + (v - 10)) && (65 + (v - 10) <=? 57))%N with false by (symmetry; apply Bool.andb_false_iff; right; apply N.leb_gt; lia).
    replace ((65 <=? 65 + (v - 10)) && (65 + (v - 10) <=? 70))%N with true by (symmetry; apply andb_true_intro; split; apply N.leb_le; lia). f_equal. lia.
  - replace ((48 <=? 97 + (v - 10)) && (97 + (v - 10) <=? 57))%N with false by (symmetry; apply Bool.andb_false_iff; right; apply N.leb_gt; lia).
    replace ((65 <=? 97 + (v - 10)) && (97 + (v - 10) <=? 70))%N with false by (symmetry; apply Bool.andb_false_iff; right; apply N.leb_gt; lia).
    replace ((97 <=? 97 + (v - 10)) && (97 + (v - 10) <=? 102))%N with true by (symmetry; apply andb_true_intro; split; apply N.leb_le; lia). f_equal. lia.
Qed.
Lemma number_reads base ds u : (0 < base)%N -> numeral base ds u -> (u < 2 ^ 64)%N -> forall r, number base 0 (ds ++ r) = number base u r.
Proof.
  intros B H. induction H as [c v D | s u c v N IH D]; intros U r.
  - cbn [app number]. rewrite (digit_xdigit _ _ _ D). rewrite N.mul_0_l, N.add_0_l, N.mod_small by exact U. reflexivity.
  - rewrite <- app_assoc. rewrite IH by nia. cbn [app number]. rewrite (digit_xdigit _ _ _ D). rewrite N.mod_small by exact U. reflexivity.
Qed.
Lemma utf8_coded u b : utf8_of u b -> coded u = Some b /\ (u < 1114112)%N.
Proof.
  intros H. unfold coded. destruct H as [a A | a b A B | a b c A B C G | a b c d A B C D G].
  - replace (a <? 128)%N with true by (symmetry; now apply N.ltb_lt). split; [reflexivity | lia].
  - replace (a * 64 + b <? 128)%N with false by (symmetry; apply N.ltb_ge; lia). replace (a * 64 + b <? 2048)%N with true by (symmetry; apply N.ltb_lt; lia).
    replace ((a * 64 + b) / 64)%N with a by (apply (N.div_unique _ _ _ b); lia). replace ((a * 64 + b) mod 64)%N with b by (apply (N.mod_unique _ _ a); lia). split; [reflexivity | lia].
  - set (u := ((a * 64 + b) * 64 + c)%N) in *. assert (U : (u < 65536)%N) by (unfold u; lia).
    replace (u <? 128)%N with false by (symmetry; apply N.ltb_ge; lia). replace (u <? 2048)%N with false by (symmetry; apply N.ltb_ge; lia). replace (u <? 65536)%N with true by (symmetry; now apply N.ltb_lt).
    replace (u / 4096)%N with a by (apply (N.div_unique _ _ _ (b * 64 + c)%N); unfold u; lia). replace (u / 64)%N with (a * 64 + b)%N by (apply (N.div_unique _ _ _ c); unfold u; lia).
    replace ((a * 64 + b) mod 64)%N with b by (apply (N.mod_unique _ _ a); lia). replace (u mod 64)%N with c by (apply (N.mod_unique _ _ (a * 64 + b)%N); unfold u; lia). split; [reflexivity | lia].
  - set (u := (((a * 64 + b) * 64 + c) * 64 + d)%N) in *.
    replace (u <? 128)%N with false by (symmetry; apply N.ltb_ge; lia). replace (u <? 2048)%N with false by (symmetry; apply N.ltb_ge; lia). replace (u <? 65536)%N with false by (symmetry; apply N.ltb_ge; lia).
    replace (u <? 1114112)%N with true by (symmetry; apply N.ltb_lt; lia).
    replace (u / 262144)%N with a by (apply (N.div_unique _ _ _ ((b * 64 + c) * 64 + d)%N); unfold u; lia).
    replace (u / 4096)%N with (a * 64 + b)%N by (apply (N.div_unique _ _ _ (c * 64 + d)%N); unfold u; lia).
    replace (u / 64)%N with ((a * 64 + b) * 64 + c)%N by (apply (N.div_unique _ _ _ d); unfold u; lia).
    replace ((a * 64 + b) mod 64)%N with b by (apply (N.mod_unique _ _ a); lia). replace (((a * 64 + b) * 64 + c) mod 64)%N with c by (apply (N.mod_unique _ _ (a * 64 + b)%N); lia).
    replace (u mod 64)%N with d by (apply (N.mod_unique _ _ ((a * 64 + b) * 64 + c)%N); unfold u; lia). split; [reflexivity | lia].
Qed.
Lemma ref_reads base ds u b r : (0 < base)%N -> numeral base ds u -> utf8_of u b -> char_ref base (ds ++ 59%N :: r) = Some (b, r).
Proof.
  intros B N U. destruct (utf8_coded u b U) as [C L]. unfold char_ref. rewrite (number_reads base ds u B N) by (eapply N.lt_trans; [exact L | reflexivity]).
  cbn [number]. change (xdigit 59%N) with (@None BinNums.N). cbv iota. rewrite C, N.eqb_refl. reflexivity.
Qed.
Lemma numeral_head base ds u : numeral base ds u -> (base = 10 \/ base = 16)%N -> exists c s, ds = c :: s /\ c <> 120%N.
Proof.
  intros H B. induction H as [c v D | s u c v N IH D].
  - exists c, []. split; [reflexivity|]. destruct D; lia.
  - destruct IH as (x & y & -> & X). exists x, (y ++ [c]). auto.
Qed.
Ltac len := repeat match goal with
  | H : context[length (_ ++ _)] |- _ => rewrite app_length in H | H : context[length (_ :: _)] |- _ => cbn [length] in H | H : context[length []] |- _ => cbn [length] in H
  | |- context[length (_ ++ _)] => rewrite app_length | |- context[length (_ :: _)] => cbn [length] | |- context[length []] => cbn [length] end; lia.
(** text *)
Lemma expand_reads norm stop raw v : In stop [34; 39; 60]%N -> xtext norm stop raw v -> forall f c r, xws c = false \/ norm = false -> c = stop -> length (raw ++ c :: r) < f ->
  expand norm (N.eqb stop) f (raw ++ c :: r) = Some (v, c :: r).
Proof.
  intros ST H. assert (NA : N.eqb stop 38%N = false) by (apply N.eqb_neq; cbn in ST; intuition congruence).
  induction H as [| c r m C1 C2 C3 H IH | c w r m NM B NB H IH | e c r m I H IH | ds u b r m D U H IH | ds u b r m D U H IH]; intros f c' r' W Ec L; subst c'.
  - apply expand_stop; [apply N.eqb_refl | lia].
  - cbn [app length] in *. destruct f; [lia|]. rewrite expand_char; [rewrite IH; auto; lia | apply N.eqb_neq; congruence | apply N.eqb_neq; congruence|].
    destruct norm; [|reflexivity]. cbn. apply not_blank; auto.
  - subst norm. rewrite <- app_comm_cons, <- app_assoc in *. cbn [length] in L. rewrite app_length in L. destruct f; [lia|].
    assert (XC : xws c = true) by (apply xws_in, B; now left).
    assert (XW : forallb xws w = true) by (apply blanks_forallb; intros x I; apply B; now right).
    assert (SK : xskip (w ++ r ++ stop :: r') = r ++ stop :: r').
    { apply xskip_ws; auto. destruct r as [|x r]; cbn [app]; [destruct W; [auto | discriminate]|]. apply not_blank. intros I. apply NB. exists x, r. auto. }
    cbn [expand]. replace (N.eqb stop c) with false by (symmetry; apply N.eqb_neq; intros ->; destruct W; congruence).
    assert (C38 : N.eqb 38 c = false) by (apply N.eqb_neq; intros <-; discriminate XC). cbn [str starts]. cbn in C38 |- *. rewrite C38, XC. cbn [andb]. rewrite SK. rewrite IH; auto. lia.
  - rewrite <- app_assoc in *. destruct f; [lia|]. cbn in I. destruct I as [I | [I | [I | [I | [I | []]]]]]; injection I as <- <-; cbn [app expand]; rewrite NA; cbn in L |- *; rewrite IH; auto; lia.
  - rewrite <- !app_assoc in *. destruct f; [lia|]. destruct (numeral_head _ _ _ D (or_introl eq_refl)) as (x & y & E & X).
    assert (R := ref_reads 10 ds u b (r ++ stop :: r') eq_refl D U). change (str ";") with [59%N] in *. cbn [app] in *. rewrite E in *. cbn [app] in *.
    change (str "&#") with [38; 35]%N in *. cbn [app] in *. cbn [expand]. rewrite NA. cbn [str starts].
    change (N_of_ascii "x") with 120%N. replace (N.eqb 120 x) with false by (symmetry; apply N.eqb_neq; congruence). cbn -[char_ref expand]. rewrite R. rewrite IH; auto. len.
  - rewrite <- !app_assoc in *. destruct f; [lia|].
    assert (R := ref_reads 16 ds u b (r ++ stop :: r') eq_refl D U). change (str ";") with [59%N] in *. change (str "&#x") with [38; 35; 120]%N in *. cbn [app] in *. cbn [expand]. rewrite NA.
    cbn -[char_ref expand]. rewrite R. rewrite IH; auto. len.
Qed.
(** attributes *)
Lemma attr_head k : xml_attr_name k -> exists x s, k = x :: s /\ xws x = false.
Proof.
  intros [NE W]. destruct k as [|x k]; [congruence|]. exists x, k. split; [reflexivity|]. apply not_blank. intros I. apply (W x); [|now left].
  cbn in I |- *. tauto.
Qed.
Lemma p_attrs_reads ra l : xattrs ra l -> forall f w e r, blanks w -> (e = xGT \/ e = xSL) -> length (ra ++ w ++ e :: r) < f ->
  p_attrs f (xskip (ra ++ w ++ e :: r)) = Some (l, e :: r).
Proof.
  induction 1 as [| w0 k w1 w2 q raw v rs l NE B0 K B1 B2 Q T XA IH]; intros f w e r B E L.
  - cbn [app] in *. rewrite xskip_ws; [| now apply blanks_forallb | destruct E as [-> | ->]; reflexivity]. destruct f; [lia|]. cbn [p_attrs xspan]. destruct E as [-> | ->]; reflexivity.
  - destruct K as [KN W]. destruct (attr_head k (conj KN W)) as (x & s & KE & X). pose proof (without_char attr_char _ k attr_forb W) as A.
    repeat rewrite <- app_assoc in *. change (str "=") with [61%N] in *. cbn [app] in *.
    set (R := rs ++ w ++ e :: r) in *. destruct f; [lia|].
    assert (QW : xws q = false) by (destruct Q as [-> | ->]; reflexivity).
    rewrite xskip_ws; [| now apply blanks_forallb | rewrite KE; exact X]. cbn [p_attrs].
    rewrite xspan_app; [| exact A |].
    2: { destruct w1 as [|y w1]; cbn [app]; [reflexivity|]. assert (Y : xws y = true) by (apply xws_in, B1; now left). unfold attr_char. rewrite Y. reflexivity. }
    rewrite KE. cbv beta iota. rewrite xskip_ws; [| now apply blanks_forallb | reflexivity]. rewrite N.eqb_refl. rewrite xskip_ws; [| now apply blanks_forallb | exact QW].
    replace (N.eqb q 34 || N.eqb q 39) with true by (destruct Q as [-> | ->]; reflexivity).
    rewrite (expand_reads false q raw v); auto; [| destruct Q as [-> | ->]; cbn; tauto].
    assert (1 <= length w0) by (destruct w0; [congruence | cbn; lia]). assert (LR : length R < f) by (clear - L H; len). unfold R. rewrite IH; [rewrite <- KE; reflexivity | auto | auto | exact LR].
Qed.
(** data *)
Lemma strip_eq v v' : stripped v v' -> match rev v with 32%N :: x => rev x | _ => v end = v'.
Proof.
  intros [-> | [-> H]].
  - rewrite rev_unit. apply rev_involutive.
  - destruct (rev v) as [|y q] eqn:R; auto. destruct (N.eq_dec y 32) as [-> | Y].
    + exfalso. apply (H (rev q)). rewrite <- (rev_involutive v), R. reflexivity.
    + clear - Y. repeat match goal with |- context[match ?x with _ => _ end] => destruct x; try reflexivity; try congruence end.
Qed.
Lemma p_data_reads h raw v v' r : xtext h 60 raw v -> (if h then stripped v v' else v' = v) -> p_data h (raw ++ xLT :: r) = Some (v', xLT :: r).
Proof.
  intros T S. unfold p_data. rewrite (expand_reads h 60 raw v); [| cbn; tauto | exact T | left; reflexivity | reflexivity | apply Nat.lt_succ_diag_r]. destruct h; [rewrite (strip_eq v v' S) | rewrite S]; reflexivity.
Qed.
Lemma xtext_head norm stop raw v : xtext norm stop raw v -> raw <> [] -> In stop [34; 39; 60]%N -> hd 0%N raw <> stop.
Proof.
  intros [| c r m C1 C2 C3 H | c w r m NM B NB H | e c r m I H | ds u b r m D U H | ds u b r m D U H] NE ST.
  - congruence.
  - exact C1.
  - cbn [hd]. intros X. specialize (B c (or_introl eq_refl)). subst c. cbn in B, ST. lia.
  - cbn in I. destruct I as [I | [I | [I | [I | [I | []]]]]]; injection I as <- <-; cbn in ST |- *; lia.
  - cbn in ST |- *; lia.
  - cbn in ST |- *; lia.
Qed.
(** what a parsed node stands for *)
Definition denotes (kc : bool) (x : option xnode) (i : item) : Prop :=
  match x with
  | Some y => forall d l, build (Node d l) y = Node (d ++ texts [i]) (l ++ nodes kc [i])
  | None => texts [i] = [] /\ nodes kc [i] = []
  end.
Lemma misc_reads kc raw i : xmisc raw i -> exists c s, raw = xLT :: c :: s /\ c <> 47%N /\ forall r, exists x, p_special (negb kc) ((c :: s) ++ r) = Some (Some (x, r)) /\ denotes kc x i.
Proof.
  intros [v H | v H].
  - eexists 33%N, _. split; [reflexivity|]. split; [discriminate|]. intros r. exists (if negb kc then None else Some (XComment v)). split.
    + change (str "-->") with ([45; 45] ++ [62])%N in *. cbn [app p_special]. change (starts (str "--") (45 :: 45 :: (v ++ [45; 45; 62]) ++ r)%N) with true. cbv iota. cbn [skipn].
      rewrite <- app_assoc. change (str "-->") with ([45; 45] ++ [62])%N. change ([45; 45; 62] ++ r)%N with (([45; 45] ++ [62]) ++ r)%N. rewrite (upto_mark [45; 45]%N 62 v r); [reflexivity | cbn; intuition discriminate | exact H].
    + destruct kc; cbn [negb denotes]; [|split; reflexivity]. intros d l. cbn [build texts nodes]. unfold add_kid. cbn [pdata pkids]. rewrite !app_nil_r. reflexivity.
  - eexists 63%N, _. split; [reflexivity|]. split; [discriminate|]. intros r. exists None. split; [|split; reflexivity].
    cbn [app p_special]. change (str "?>") with ([63] ++ [62])%N in *. change (v ++ [N_of_ascii "?"; N_of_ascii ">"]) with (v ++ ([63] ++ [62])%N). rewrite <- app_assoc. rewrite (upto_mark [63]%N 62 v r); [reflexivity | cbn; intuition discriminate | exact H].
Qed.
Lemma cdata_reads nc v r : lacks (str "]]>") v -> p_special nc ((33%N :: str "[CDATA[") ++ v ++ str "]]>" ++ r) = Some (Some (Some (XData v), r)).
Proof.
  intros H. cbn [app p_special]. change (starts (str "--") (str "[CDATA[" ++ v ++ str "]]>" ++ r)) with false. rewrite starts_app. cbv iota.
  change 7 with (length (str "[CDATA[")). rewrite skipn_app_len. change (str "]]>") with ([93; 93] ++ [62])%N in *. rewrite (upto_mark [93; 93]%N 62 v r); [reflexivity | cbn; intuition discriminate | exact H].
Qed.
Lemma doctype_in a : bracketed a -> forall d r, doctype (S d) (a ++ r) = doctype (S d) r.
Proof.
  induction 1 as [| c a C1 C2 B IH | a b A IA B IB]; intros d r; [reflexivity | |].
  - cbn [app doctype]. rewrite (proj2 (N.eqb_neq c 91) C1), (proj2 (N.eqb_neq c 93) C2). apply IH.
  - rewrite <- !app_assoc. cbn [str app]. change (doctype (S d) (N_of_ascii "[" :: a ++ N_of_ascii "]" :: b ++ r)) with (doctype (S (S d)) (a ++ N_of_ascii "]" :: b ++ r)).
    rewrite IA. change (doctype (S (S d)) (N_of_ascii "]" :: b ++ r)) with (doctype (S d) (b ++ r)). apply IB.
Qed.
Lemma doctype_reads d : dtd d -> forall r, doctype 0 (d ++ 62%N :: r) = Some r.
Proof.
  induction 1 as [| c d C1 C2 C3 D IH | a d A D IH]; intros r; [reflexivity | |].
  - cbn [app doctype]. rewrite (proj2 (N.eqb_neq c 62) C3), (proj2 (N.eqb_neq c 91) C1). apply IH.
  - rewrite <- !app_assoc. cbn [str app]. change (doctype 0 (N_of_ascii "[" :: a ++ N_of_ascii "]" :: d ++ 62%N :: r)) with (doctype 1 (a ++ N_of_ascii "]" :: d ++ 62%N :: r)).
    rewrite doctype_in by exact A. change (doctype 1 (N_of_ascii "]" :: d ++ 62%N :: r)) with (doctype 0 (d ++ 62%N :: r)). apply IH.
Qed.
Scheme xelem_mut := Minimality for xelem Sort Prop with xcontent_mut := Minimality for xcontent Sort Prop.
Combined Scheme xelem_both from xelem_mut, xcontent_mut.
Section Elements.
  Variables h kc : bool.
  Definition elem_ok (raw k : bytes) (t : ptree) : Prop :=
    exists c s, raw = xLT :: c :: s /\ c <> 47%N /\ (forall r, p_special (negb kc) (c :: s ++ r) = None) /\
      forall r f, length (c :: s ++ r) < f -> exists x, p_elem h (negb kc) f (c :: s ++ r) = Some (x, r) /\ forall pt, build pt x = add_kid pt k t.
  Definition content_ok (raw : bytes) (is : list item) : Prop :=
    forall k w r f, xml_name k -> blanks w -> length (raw ++ str "</" ++ k ++ w ++ str ">" ++ r) < f ->
      exists xs, p_contents h (negb kc) f (raw ++ str "</" ++ k ++ w ++ str ">" ++ r) = Some (xs, r) /\
        forall d l, fold_left build xs (Node d l) = Node (d ++ texts is) (l ++ nodes kc is).
  Lemma name_chars k : xml_name k -> exists c s, k = c :: s /\ c <> 47%N /\ (forall x, In x k -> name_char x = true) /\ forall nc r, p_special nc (k ++ r) = None.
  Proof using.
    intros (NE & W & X). destruct k as [|c s]; [congruence|]. exists c, s. split; [reflexivity|]. cbn in X.
    assert (C : ~ In c [32; 9; 10; 13; 47; 62; 63; 0]%N) by (intros I; apply (W c I); now left).
    split; [intros ->; apply C; cbn; tauto|]. split; [exact (without_char name_char _ _ name_forb W)|]. intros nc r. cbn [app p_special].
    assert (c <> 63%N) by (intros ->; apply C; cbn; tauto). clear - X H. repeat match goal with |- context[match ?x with _ => _ end] => destruct x; try reflexivity; try congruence end.
  Qed.
  Lemma after_name ra l w e r : xattrs ra l -> blanks w -> (e = 62 \/ e = 47)%N -> match ra ++ w ++ e :: r with [] => True | c :: _ => name_char c = false end.
  Proof using.
    assert (B : forall w s, w <> [] -> blanks w -> match w ++ s with [] => True | c :: _ => name_char c = false end).
    { intros [|x v] s NE B; [congruence|]. cbn. unfold name_char. rewrite (proj2 (xws_in x)); [reflexivity|]. apply B. now left. }
    intros A W E. destruct A; [cbn [app]|].
    - destruct w; [cbn; destruct E as [-> | ->]; reflexivity | apply B; [discriminate | exact W]].
    - repeat rewrite <- app_assoc. apply B; auto.
  Qed.
  Lemma elems_ok : (forall raw k t, xelem h kc raw k t -> elem_ok raw k t) /\ (forall raw is, xcontent h kc raw is -> content_ok raw is).
  Proof using.
    assert (AN : forall l, attr_nodes l = match l with [] => [] | _ => [(XMLATTR, Node [] (map (fun p => (fst p, Node (snd p) [])) l))] end) by (intros []; reflexivity).
    apply (xelem_both h kc elem_ok content_ok).
    - intros k ra l w K A W. destruct (name_chars k K) as (c & s & E & C & NC & SP). exists c, (s ++ ra ++ w ++ str "/>").
      split; [rewrite E; reflexivity|]. split; [exact C|].
      assert (EQ : forall r, c :: (s ++ ra ++ w ++ str "/>") ++ r = k ++ ra ++ w ++ 47%N :: 62%N :: r) by (intros r; rewrite E, <- !app_assoc; reflexivity).
      split; [intros r; rewrite EQ; apply SP|]. intros r f L. rewrite EQ. destruct f; [lia|]. rewrite p_elem_S. rewrite xspan_app; [| exact NC | eapply after_name; eauto].
      rewrite E. cbv beta iota. rewrite <- E. rewrite (p_attrs_reads ra l A); auto. cbn [N.eqb Pos.eqb]. eexists. split; [reflexivity|]. intros pt. rewrite build_eq. cbn [fold_left]. rewrite <- AN. unfold the_element. cbn [texts nodes]. rewrite app_nil_r. reflexivity.
    - intros k ra l w rc is w' K A W XC IC W'. destruct (name_chars k K) as (c & s & E & C & NC & SP). exists c, (s ++ ra ++ w ++ str ">" ++ rc ++ str "</" ++ k ++ w' ++ str ">").
      split; [rewrite E; reflexivity|]. split; [exact C|].
      assert (EQ : forall r, c :: (s ++ ra ++ w ++ str ">" ++ rc ++ str "</" ++ k ++ w' ++ str ">") ++ r = k ++ ra ++ w ++ 62%N :: rc ++ str "</" ++ k ++ w' ++ str ">" ++ r) by (intros r; rewrite E, <- !app_assoc; cbn [app]; repeat rewrite <- app_assoc; reflexivity).
      split; [intros r; rewrite EQ; apply SP|]. intros r f L. rewrite EQ. destruct f; [lia|]. rewrite p_elem_S. rewrite xspan_app; [| exact NC | eapply after_name; eauto].
      destruct k as [|k0 k1] eqn:KE; [discriminate|]. rewrite <- KE in *. rewrite (p_attrs_reads ra l A); auto. cbn [N.eqb Pos.eqb].
      destruct (IC k w' r f K W') as (xs & PC & BX); [change (str ">") with [62%N] in *; change (str "<") with [60%N] in *; change (str "</") with [60; 47]%N in *; len|].
      rewrite PC. eexists. split; [reflexivity|]. intros pt. rewrite build_eq. rewrite <- AN, BX. reflexivity.
    - intros w G k w' r f K W L. exists []. split; [|intros d l; cbn; now rewrite !app_nil_r]. destruct f; [lia|]. rewrite p_contents_S. cbv zeta.
      change (str "</") with [60; 47]%N. cbn [app]. rewrite wsok_skip by (auto using gap_wsok; reflexivity). change (N.eqb 60 xLT) with true. cbv iota. change (starts [xSL] (47%N :: k ++ w' ++ str ">" ++ r)) with true. cbn [skipn].
      destruct (name_chars k K) as (c & s & E & C & NC & SP). rewrite xspan_app; [| exact NC | exact (after_name [] [] w' 62%N r xa_nil W (or_introl eq_refl))].
      cbn [snd]. change (str ">" ++ r) with (62%N :: r). rewrite xskip_ws; [reflexivity | now apply blanks_forallb | reflexivity].
    - intros w raw v v' r is G NE NB T SV R XC IC k w' rest f K W L. repeat rewrite <- app_assoc in *.
      destruct f; [lia|]. assert (LT : exists q, r ++ str "</" ++ k ++ w' ++ str ">" ++ rest = xLT :: q) by (destruct R as [-> | (q & ->)]; eexists; reflexivity).
      destruct (IC k w' rest f K W) as (xs & PC & BX); [assert (1 <= length raw) by (destruct raw; [congruence | cbn; lia]); len|].
      set (R1 := r ++ str "</" ++ k ++ w' ++ str ">" ++ rest) in *. destruct LT as (q & LT). exists (XData v' :: xs). split.
      + rewrite p_contents_S. cbv zeta. assert (SK : (if h then xskip (w ++ raw ++ R1) else w ++ raw ++ R1) = raw ++ R1).
        { unfold gap in G. destruct h; [|now subst w]. apply xskip_ws; [now apply blanks_forallb|]. destruct raw as [|x raw]; [congruence|]. cbn. apply not_blank. intros I. apply (NB eq_refl). exists x, raw. auto. }
        rewrite SK. assert (ER : exists x raw0, raw = x :: raw0) by (destruct raw; [congruence | eauto]). destruct ER as (x & raw0 & ER).
        assert (X : x <> 60%N) by (pose proof (xtext_head _ _ _ _ T NE) as XH; rewrite ER in XH; apply XH; cbn; tauto).
        rewrite LT in *. pose proof (p_data_reads h raw v v' q T SV) as PD. rewrite ER in PD |- *. cbn [app] in PD |- *. rewrite (proj2 (N.eqb_neq x xLT) X). rewrite PD, PC. reflexivity.
      + intros d l. cbn [fold_left]. rewrite build_eq. cbn [pdata pkids]. rewrite BX. cbn [texts nodes]. now rewrite app_assoc.
    - intros w raw k t r is G XE (c & s & -> & C & SP & PE) XC IC k' w' rest f K W L. repeat rewrite <- app_assoc in *. cbn [app] in *.
      destruct f; [lia|]. set (R1 := r ++ str "</" ++ k' ++ w' ++ str ">" ++ rest) in *.
      destruct (IC k' w' rest f K W) as (xs & PC & BX); [fold R1; len|]. fold R1 in PC. destruct (PE R1 f) as (x & EX & BE); [cbn [app]; len|].
      exists (x :: xs). rewrite contents_child by (auto using gap_wsok). rewrite SP, EX, PC. split; [reflexivity|]. intros d l. cbn [fold_left]. rewrite BE. unfold add_kid. cbn [pdata pkids]. rewrite BX. cbn [texts nodes]. now rewrite <- app_assoc.
    - intros w raw i r is G XM XC IC k' w' rest f K W L. repeat rewrite <- app_assoc in *. destruct (misc_reads kc raw i XM) as (c & s & -> & C & SP). cbn [app] in *.
      destruct f; [lia|]. set (R1 := r ++ str "</" ++ k' ++ w' ++ str ">" ++ rest) in *.
      destruct (IC k' w' rest f K W) as (xs & PC & BX); [fold R1; len|]. fold R1 in PC. destruct (SP R1) as (x & EX & BE). cbn [app] in EX.
      rewrite contents_child by (auto using gap_wsok). rewrite EX, PC. eexists. split; [reflexivity|]. intros d l. destruct x as [y|]; cbn [denotes] in BE.
      + cbn [fold_left]. rewrite BE, BX. destruct i; cbn [texts nodes]; rewrite <- ?app_assoc, ?app_nil_r; cbn [app]; rewrite <- ?app_assoc; reflexivity.
      + destruct BE as [B1 B2]. rewrite BX. destruct i as [v|k0 t0|v|]; cbn [texts nodes] in *; try discriminate; [rewrite app_nil_r in B1; subst v; reflexivity | destruct kc; [discriminate | reflexivity] | reflexivity].
    - intros w v r is G LK XC IC k' w' rest f K W L. repeat rewrite <- app_assoc in *.
      set (R1 := r ++ str "</" ++ k' ++ w' ++ str ">" ++ rest) in *. change (str "<![CDATA[") with (xLT :: 33%N :: str "[CDATA[") in *. cbn [app] in *.
      destruct f; [lia|]. destruct (IC k' w' rest f K W) as (xs & PC & BX); [fold R1; len|]. fold R1 in PC.
      rewrite contents_child by (auto using gap_wsok; discriminate). change (33%N :: str "[CDATA[" ++ v ++ str "]]>" ++ R1) with ((33%N :: str "[CDATA[") ++ v ++ str "]]>" ++ R1). rewrite (cdata_reads _ v R1 LK), PC.
      eexists. split; [reflexivity|]. intros d l. cbn [fold_left]. rewrite build_eq. cbn [pdata pkids]. rewrite BX. cbn [texts nodes]. now rewrite app_assoc.
  Qed.
End Elements.

Lemma doc_reads h kc raw is : xdoc h kc raw is -> texts is = [] /\ forall f, length raw < f ->
  exists xs, p_doc h (negb kc) f raw = Some xs /\ forall d l, fold_left build xs (Node d l) = Node d (l ++ nodes kc is).
Proof.
  induction 1 as [w B | w raw k t r is B E D [TX IH] | w raw i r is B M D [TX IH] | w c d r is B C T D [TX IH]].
  - split; [reflexivity|]. intros f L. exists []. split; [|intros d l; cbn; now rewrite app_nil_r]. destruct f; [lia|]. cbn [p_doc]. rewrite <- (app_nil_r w), xskip_ws; [reflexivity | now apply blanks_forallb | exact I].
  - split; [exact TX|]. intros f L. destruct (proj1 (elems_ok h kc) raw k t E) as (c & s & -> & C & SP & PE). cbn [app] in *. destruct f; [lia|].
    destruct (IH f) as (xs & PD & BX); [len|]. destruct (PE r (S (length (c :: s ++ r)))) as (x & EX & BE); [lia|]. exists (x :: xs).
    cbn [p_doc]. rewrite xskip_ws; [| now apply blanks_forallb | reflexivity]. rewrite N.eqb_refl. rewrite SP, EX, PD. split; [reflexivity|].
    intros d l. cbn [fold_left]. rewrite BE. unfold add_kid. cbn [pdata pkids]. rewrite BX. cbn [nodes]. now rewrite <- app_assoc.
  - assert (TI : texts [i] = []) by (destruct M; reflexivity). split; [destruct i; cbn [texts] in *; try (rewrite app_nil_r in TI; subst); auto|]. intros f L.
    destruct (misc_reads kc raw i M) as (c & s & -> & C & SP). cbn [app] in *. destruct f; [lia|].
    destruct (IH f) as (xs & PD & BX); [len|]. destruct (SP r) as (x & EX & BE). cbn [app] in EX.
    cbn [p_doc]. rewrite xskip_ws; [| now apply blanks_forallb | reflexivity]. rewrite N.eqb_refl. rewrite EX, PD. eexists. split; [reflexivity|]. intros d l. destruct x as [y|]; cbn [denotes] in BE.
    + cbn [fold_left]. rewrite BE, TI, BX, app_nil_r. destruct i; cbn [nodes]; rewrite <- ?app_assoc, ?app_nil_r; cbn [app]; rewrite <- ?app_assoc; reflexivity.
    + destruct BE as [_ B2]. rewrite BX. destruct i as [v|k0 t0|v|]; cbn [nodes] in *; try discriminate; [reflexivity | destruct kc; [discriminate | reflexivity] | reflexivity].
  - split; [exact TX|]. intros f L. change (str "<!DOCTYPE") with (xLT :: 33%N :: str "DOCTYPE") in *. change (str ">") with [62%N] in *. cbn [app] in *. destruct f; [lia|].
    destruct (IH f) as (xs & PD & BX); [len|]. exists xs. cbn [p_doc]. rewrite xskip_ws; [| now apply blanks_forallb | reflexivity]. rewrite N.eqb_refl.
    cbn [p_special]. change (starts (str "--") (str "DOCTYPE" ++ c :: d ++ 62%N :: r)) with false. change (starts (str "[CDATA[") (str "DOCTYPE" ++ c :: d ++ 62%N :: r)) with false.
    rewrite starts_app. change 7 with (length (str "DOCTYPE")) at 1. rewrite skipn_app_len. rewrite (proj2 (xws_in c) C). cbn [andb]. change (skipn 8 (str "DOCTYPE" ++ c :: d ++ 62%N :: r)) with (d ++ 62%N :: r).
    rewrite (doctype_reads d T), PD. split; [reflexivity|]. exact BX.
Qed.
(** * Theorems *)
(** Every such file loads and gives the tree it stands for. *)
Theorem xml_reads : forall h ignoreComments old file t, xml_file h (negb ignoreComments) file t -> loadXml h ignoreComments old file = (t, Ok tt).
Proof.
  intros h ic old file t (raw & is & F & Z & NB & D & ->). destruct (doc_reads h (negb ic) raw is D) as (_ & R). unfold loadXml, read_xml.
  assert (S : skip_bom (cut_nul file) = raw).
  { destruct F as [-> | ->].
    - rewrite cut_no0 by exact Z. unfold skip_bom. destruct (starts _ raw) eqn:E; [|reflexivity]. exfalso. apply NB. now apply starts_spec.
    - rewrite cut_no0; [reflexivity|]. intros I. apply in_app_or in I as [I | I]; [cbn in I; intuition discriminate | exact (Z I)]. }
  rewrite S. destruct (R _ (Nat.lt_succ_diag_r _)) as (xs & PD & BX). rewrite Bool.negb_involutive in PD. rewrite PD. unfold pempty. rewrite BX. reflexivity.
Qed.
(** The file that is written begins with the declaration. *)
Theorem xml_declared : forall h t, exists r, saveXml h t = str "<?xml version=""1.0"" encoding=""utf-8""?>" ++ [10%N] ++ r.
Proof. intros h t. unfold saveXml, write_xml, xml_decl. rewrite <- app_assoc. eauto. Qed.
(** The reader is lax: end tags need not match, there may be any number of top-level elements, an ampersand may stand for itself, decimal references may have hexadecimal digits. *)
Theorem xml_malformed_refuted : forall h ic old,
  loadXml h ic old (str "<a></b>") = (Node [] [(str "a", pempty)], Ok tt) /\
  loadXml h ic old (str "<a/><b/>") = (Node [] [(str "a", pempty); (str "b", pempty)], Ok tt) /\
  loadXml h ic old (str "<a>&x</a>") = (Node [] [(str "a", Node (str "&x") [])], Ok tt) /\
  loadXml h ic old (str "<a>&#A;</a>") = (Node [] [(str "a", Node [10%N] [])], Ok tt) /\
  loadXml h ic old [] = (pempty, Ok tt).
Proof. intros [] [] old; repeat split; vm_compute; reflexivity. Qed.
(** a file with most of it *)
Example xml_file_example : xml_file true true (str "<!DOCTYPE a [<!ELEMENT a>]> <a b = 'x&#65;'> p  q <![CDATA[<&]]> <!--n--></a>")
  (Node [] [(str "a", Node (str "p q<&") [(str "<xmlattr>", Node [] [(str "b", Node (str "xA") [])]); (str "<xmlcomment>", Node (str "n") [])])]).
Proof.
  exists (str "<!DOCTYPE a [<!ELEMENT a>]> <a b = 'x&#65;'> p  q <![CDATA[<&]]> <!--n--></a>").
  set (a := Node (str "p q<&") [(str "<xmlattr>", Node [] [(str "b", Node (str "xA") [])]); (str "<xmlcomment>", Node (str "n") [])]).
  exists [INothing; IElem (str "a") a]. split; [now left|]. split; [cbn; intuition discriminate|]. split; [intros (s & E); discriminate E|]. split; [|reflexivity].
  assert (B : blanks [32%N]) by (intros c [<- | []]; now left). assert (B0 : blanks []) by (intros c []).
  assert (LK : forall m v, length v < length m -> lacks m v) by (intros m v L x y ->; rewrite !app_length in L; lia).
  apply (xd_dtd true true [] 32%N (str "a [<!ELEMENT a>]") (str " <a b = 'x&#65;'> p  q <![CDATA[<&]]> <!--n--></a>")); auto; [now left | |].
  { do 2 (apply dtd_char; [discriminate..|]). apply (dtd_in (str "<!ELEMENT a>") []); [|constructor]. repeat (apply br_char; [discriminate..|]). constructor. }
  apply (xd_elem true true [32%N] (str "<a b = 'x&#65;'> p  q <![CDATA[<&]]> <!--n--></a>") (str "a") a []); auto; [|now constructor].
  assert (NA : xml_name (str "a")) by (split; [discriminate|]; split; [intros c I J; cbn in I, J; intuition congruence | discriminate]).
  assert (AT : xattrs (str " b = 'x&#65;'") [(str "b", str "xA")]).
  { apply (xa_cons [32%N] (str "b") [32%N] [32%N] 39%N (str "x&#65;") (str "xA") [] []); auto; [discriminate | | |constructor].
    - split; [discriminate|]. intros c I J; cbn in I, J; intuition congruence.
    - apply xt_char; [discriminate..|]. apply (xt_dec false 39 (str "65") 65 (str "A") [] []); [|now constructor|constructor].
      apply (numeral_more 10 [54%N] 6 53%N 5); [apply numeral_one; exact (digit_dec 10 6 eq_refl) | exact (digit_dec 10 5 eq_refl)]. }
  apply (xe_full true true (str "a") (str " b = 'x&#65;'") [(str "b", str "xA")] [] (str " p  q <![CDATA[<&]]> <!--n-->") [IText (str "p q"); IText (str "<&"); IComment (str "n")] []); auto.
  apply (xc_text true true [32%N] (str "p  q ") (str "p q ") (str "p q") (str "<![CDATA[<&]]> <!--n-->")); auto; [discriminate | | | now left | right; eexists; reflexivity |].
  - intros _ (c & r & E & I). injection E as <- <-. cbn in I. intuition discriminate.
  - assert (NB : forall c, In c (str "pq") -> ~ In c [32; 9; 10; 13]%N) by (cbn; intuition (subst; discriminate)).
    apply xt_char; [discriminate | discriminate | intros _; apply NB; cbn; tauto |].
    apply (xt_blanks true 60 32%N [32%N] (str "q ")); auto; [intros c [<- | [<- | []]]; now left | intros (c & r & E & I); injection E as <- <-; apply (NB 113%N); cbn; tauto |].
    apply xt_char; [discriminate | discriminate | intros _; apply NB; cbn; tauto |]. apply (xt_blanks true 60 32%N [] []); auto; [intros (c & r & E & I); discriminate E | constructor].
  - apply (xc_cdata true true [] (str "<&") (str " <!--n-->")); [exact B0 | apply LK; cbn; lia |].
    apply (xc_misc true true [32%N] (str "<!--n-->") (IComment (str "n")) []); [exact B | apply (xm_comment (str "n")); apply LK; cbn; lia | now constructor].
Qed.
