(** C126: which texts loadJson accepts, and the trees they mean. *)
From Verif Require Import Bytes Strings_Model PTree_Model JsonFile_Model JsonFile_Props ValueStore_Model ValueStore_Proofs.
Open Scope nat_scope.

(** ** Specification: the grammar of RFC 8259, with the meaning of a text as a property tree. Extensions of the reader: raw
    control characters in strings, and UTF-8 checked by lead byte only. *)
Definition blank (w : bytes) : Prop := forall c, In c w -> In c [32; 9; 10; 13]%N.
(** the UTF-8 bytes of a code point *)
Inductive encodes : N -> bytes -> Prop :=
| e_1 : forall u, (u < 128)%N -> encodes u [u]
| e_2 : forall x y, (2 <= x < 32)%N -> (y < 64)%N -> encodes (64 * x + y) [192 + x; 128 + y]%N
| e_3 : forall x y z, (x < 16)%N -> (y < 64)%N -> (z < 64)%N -> (2048 <= 4096 * x + 64 * y + z)%N ->
    encodes (4096 * x + 64 * y + z) [224 + x; 128 + y; 128 + z]%N
| e_4 : forall x y z v, (x < 8)%N -> (y < 64)%N -> (z < 64)%N -> (v < 64)%N -> (65536 <= 262144 * x + 4096 * y + 64 * z + v)%N ->
    encodes (262144 * x + 4096 * y + 64 * z + v) [240 + x; 128 + y; 128 + z; 128 + v]%N.
Inductive hexdigit : byte -> N -> Prop :=
| h_09 : forall d, (d < 10)%N -> hexdigit (48 + d) d
| h_AF : forall d, (d < 6)%N -> hexdigit (65 + d) (10 + d)
| h_af : forall d, (d < 6)%N -> hexdigit (97 + d) (10 + d).
Inductive hex4 : bytes -> N -> Prop :=
| h_4 : forall a b c d x y z w, hexdigit a x -> hexdigit b y -> hexdigit c z -> hexdigit d w -> hex4 [a; b; c; d] (4096 * x + 256 * y + 16 * z + w).
Definition BACKSLASH : byte := 92%N.
(** the inside of a string literal and the text it stands for *)
Inductive jchars : bytes -> bytes -> Prop :=
| c_nil : jchars [] []
| c_plain : forall c s v, (c < 128)%N -> c <> 34%N -> c <> BACKSLASH -> jchars s v -> jchars (c :: s) (c :: v)
| c_2 : forall c a s v, (192 <= c <= 223)%N -> cont a -> jchars s v -> jchars (c :: a :: s) (c :: a :: v)
| c_3 : forall c a b s v, (224 <= c <= 239)%N -> cont a -> cont b -> jchars s v -> jchars (c :: a :: b :: s) (c :: a :: b :: v)
| c_4 : forall c a b d s v, (240 <= c <= 247)%N -> cont a -> cont b -> cont d -> jchars s v -> jchars (c :: a :: b :: d :: s) (c :: a :: b :: d :: v)
| c_esc : forall e x s v, In (e, x) [(34, 34); (92, 92); (47, 47); (98, 8); (102, 12); (110, 10); (114, 13); (116, 9)]%N ->
    jchars s v -> jchars (BACKSLASH :: e :: s) (x :: v)
| c_u : forall q u w s v, hex4 q u -> (u < 55296 \/ 57343 < u)%N -> encodes u w -> jchars s v ->
    jchars (BACKSLASH :: 117%N :: q ++ s) (w ++ v)
| c_pair : forall q q' hi lo w s v, hex4 q (55296 + hi) -> hex4 q' (56320 + lo) -> (hi < 1024)%N -> (lo < 1024)%N ->
    encodes (65536 + 1024 * hi + lo) w -> jchars s v ->
    jchars (BACKSLASH :: 117%N :: q ++ BACKSLASH :: 117%N :: q' ++ s) (w ++ v).
Definition digits (s : bytes) : Prop := s <> [] /\ forall c, In c s -> (48 <= c <= 57)%N.
(** -? (0 | [1-9][0-9]* ) (. [0-9]+)? ([eE] [+-]? [0-9]+)? *)
Definition number (s : bytes) : Prop := exists m i f e, s = m ++ i ++ f ++ e /\
  (m = [] \/ m = str "-") /\
  (i = str "0" \/ (digits i /\ hd 0%N i <> 48%N)) /\
  (f = [] \/ exists d, digits d /\ f = 46%N :: d) /\
  (e = [] \/ exists x sg d, (x = 101 \/ x = 69)%N /\ (sg = [] \/ sg = str "+" \/ sg = str "-") /\ digits d /\ e = x :: sg ++ d).
(** [jvalue text tree]; the children of an array have empty keys *)
Inductive jvalue : bytes -> ptree -> Prop :=
| v_string : forall s v, jchars s v -> jvalue (34%N :: s ++ [34%N]) (Node v [])
| v_number : forall s, number s -> jvalue s (Node s [])
| v_word : forall s, In s [str "true"; str "false"; str "null"] -> jvalue s (Node s [])
| v_object0 : forall w, blank w -> jvalue (123%N :: w ++ [125%N]) (Node [] [])
| v_object : forall s ks, jmembers s ks -> jvalue (123%N :: s ++ [125%N]) (Node [] ks)
| v_array0 : forall w, blank w -> jvalue (91%N :: w ++ [93%N]) (Node [] [])
| v_array : forall s ks, jelements s ks -> jvalue (91%N :: s ++ [93%N]) (Node [] ks)
with jmembers : bytes -> list (bytes * ptree) -> Prop :=
| m_one : forall s k c, jmember s k c -> jmembers s [(k, c)]
| m_more : forall s k c s' ks, jmember s k c -> jmembers s' ks -> jmembers (s ++ 44%N :: s') ((k, c) :: ks)
with jmember : bytes -> bytes -> ptree -> Prop :=
| m_member : forall w1 s k w2 w3 v c w4, blank w1 -> jchars s k -> blank w2 -> blank w3 -> jvalue v c -> blank w4 ->
    jmember (w1 ++ 34%N :: s ++ 34%N :: w2 ++ 58%N :: w3 ++ v ++ w4) k c
with jelements : bytes -> list (bytes * ptree) -> Prop :=
| l_one : forall w1 v c w2, blank w1 -> jvalue v c -> blank w2 -> jelements (w1 ++ v ++ w2) [([], c)]
| l_more : forall w1 v c w2 s' ks, blank w1 -> jvalue v c -> blank w2 -> jelements s' ks -> jelements (w1 ++ v ++ w2 ++ 44%N :: s') (([], c) :: ks).
Definition json_file (file : bytes) (t : ptree) : Prop := exists bom w v w',
  file = bom ++ w ++ v ++ w' /\ (bom = [] \/ bom = [239; 187; 191]%N) /\ blank w /\ blank w' /\ jvalue v t.

Scheme jvalue_mut := Induction for jvalue Sort Prop
with jmembers_mut := Induction for jmembers Sort Prop
with jmember_mut := Induction for jmember Sort Prop
with jelements_mut := Induction for jelements Sort Prop.

(** ** White space *)
Lemma jspace_in c : jspace c = true <-> In c [32; 9; 10; 13]%N.
Proof. unfold jspace. repeat rewrite Bool.orb_true_iff. rewrite !N.eqb_eq. cbn. intuition congruence. Qed.
Lemma blank_nil : blank []. Proof. intros c []. Qed.
Lemma blank_cons c w : jspace c = true -> blank w -> blank (c :: w).
Proof. intros H B x [<-|I]; [now apply jspace_in | auto]. Qed.
Lemma jskip_sound s : exists w, s = w ++ jskip s /\ blank w /\ match jskip s with [] => True | c :: _ => jspace c = false end.
Proof.
  induction s as [|c s (w & E & B & H)]; [exists []; repeat split; intros ? []|]. cbn [jskip]. destruct (jspace c) eqn:J.
  - exists (c :: w). cbn [app]. rewrite <- E. split; auto. split; auto. now apply blank_cons.
  - exists []. repeat split; auto using blank_nil.
Qed.
Lemma jskip_blank w s : blank w -> jskip (w ++ s) = jskip s.
Proof.
  induction w as [|c w IH]; intros B; auto. cbn. rewrite (proj2 (jspace_in c) (B c (or_introl eq_refl))). apply IH. intros x I. apply B. now right.
Qed.
Lemma jskip_all w : blank w -> jskip w = [].
Proof. intros B. rewrite <- (app_nil_r w). now rewrite jskip_blank. Qed.

(** ** Strings *)
Lemma utf8_encodes u : (u < 2097152)%N -> encodes u (utf8 u).
Proof.
  intros H. unfold utf8. destruct (N.leb_spec u 127); [apply e_1; lia|]. 
  assert (D1 : u = (64 * (u / 64) + u mod 64)%N) by (apply N.div_mod; discriminate).
  assert (D2 : (u / 64 = 64 * (u / 4096) + u / 64 mod 64)%N) by (rewrite (N.div_mod (u / 64) 64) at 1 by discriminate; now rewrite N.div_div by discriminate).
  assert (D3 : (u / 4096 = 64 * (u / 262144) + u / 4096 mod 64)%N) by (rewrite (N.div_mod (u / 4096) 64) at 1 by discriminate; now rewrite N.div_div by discriminate).
  pose proof (N.mod_lt u 64 ltac:(discriminate)) as M1. pose proof (N.mod_lt (u / 64) 64 ltac:(discriminate)) as M2. pose proof (N.mod_lt (u / 4096) 64 ltac:(discriminate)) as M3.
  assert (K : (forall a b c x y z, u = 64 * c + z -> c = 64 * b + y -> b = 64 * a + x -> z < 64 -> y < 64 -> x < 64 ->
    encodes u (if u <=? 2047 then [192 + c; 128 + z] else if u <=? 65535 then [224 + b; 128 + y; 128 + z] else [240 + a; 128 + x; 128 + y; 128 + z]))%N).
  2:{ now apply K. }
  clear - H H0. intros a b c x y z E1 E2 E3 L1 L2 L3.
  destruct (N.leb_spec u 2047); [|destruct (N.leb_spec u 65535)].
  - replace u with (64 * c + z)%N by lia. apply e_2; lia.
  - replace u with (4096 * b + 64 * y + z)%N by lia. apply e_3; lia.
  - replace u with (262144 * a + 4096 * x + 64 * y + z)%N by lia. apply e_4; lia.
Qed.
Lemma encodes_fun u w : encodes u w -> w = utf8 u.
Proof.
  destruct 1 as [u H|x y A B|x y z A B C D|x y z v A B C D F]; unfold utf8.
  - rewrite (proj2 (N.leb_le u 127)) by lia. reflexivity.
  - rewrite (proj2 (N.leb_gt _ 127)), (proj2 (N.leb_le _ 2047)) by lia.
    rewrite <- (N.div_unique (64 * x + y) 64 x y), <- (N.mod_unique (64 * x + y) 64 x y) by lia. reflexivity.
  - rewrite (proj2 (N.leb_gt _ 127)), (proj2 (N.leb_gt _ 2047)), (proj2 (N.leb_le _ 65535)) by lia. set (u := (4096 * x + 64 * y + z)%N).
    rewrite <- (N.mod_unique u 64 (64 * x + y) z), <- (N.div_unique u 64 (64 * x + y) z), <- (N.div_unique u 4096 x (64 * y + z)) by (unfold u; lia).
    rewrite <- (N.mod_unique (64 * x + y) 64 x y) by lia. reflexivity.
  - rewrite (proj2 (N.leb_gt _ 127)), (proj2 (N.leb_gt _ 2047)), (proj2 (N.leb_gt _ 65535)) by lia. set (u := (262144 * x + 4096 * y + 64 * z + v)%N).
    rewrite <- (N.mod_unique u 64 (4096 * x + 64 * y + z) v), <- (N.div_unique u 64 (4096 * x + 64 * y + z) v), <- (N.div_unique u 4096 (64 * x + y) (64 * z + v)), <- (N.div_unique u 262144 x (4096 * y + 64 * z + v)) by (unfold u; lia).
    rewrite <- (N.mod_unique (4096 * x + 64 * y + z) 64 (64 * x + y) z), <- (N.mod_unique (64 * x + y) 64 x y) by lia. reflexivity.
Qed.
Lemma hexv_spec c d : hexv c = Some d <-> hexdigit c d.
Proof.
  unfold hexv. split.
  - intros H. destruct (N.leb_spec 48 c); destruct (N.leb_spec c 57); cbn [andb] in H.
    1:{ injection H as <-. replace c with (48 + (c - 48))%N at 1 by lia. apply h_09. lia. }
    all: destruct (N.leb_spec 65 c); destruct (N.leb_spec c 70); cbn [andb] in H; try lia.
    all: try (injection H as <-; replace c with (65 + (c - 65))%N at 1 by lia; replace (c - 55)%N with (10 + (c - 65))%N by lia; apply h_AF; lia).
    all: destruct (N.leb_spec 97 c); destruct (N.leb_spec c 102); cbn [andb] in H; try lia; try discriminate.
    all: injection H as <-; replace c with (97 + (c - 97))%N at 1 by lia; replace (c - 87)%N with (10 + (c - 97))%N by lia; apply h_af; lia.
  - destruct 1 as [d H|d H|d H].
    + rewrite (proj2 (N.leb_le 48 _)), (proj2 (N.leb_le _ 57)) by lia. cbn [andb]. f_equal. lia.
    + rewrite (proj2 (N.leb_gt _ 57)), Bool.andb_false_r, (proj2 (N.leb_le 65 _)), (proj2 (N.leb_le _ 70)) by lia. cbn [andb]. f_equal. lia.
    + rewrite (proj2 (N.leb_gt _ 57)), Bool.andb_false_r, (proj2 (N.leb_gt _ 70)), Bool.andb_false_r, (proj2 (N.leb_le 97 _)), (proj2 (N.leb_le _ 102)) by lia. cbn [andb]. f_equal. lia.
Qed.
Lemma hexdigit_lt c d : hexdigit c d -> (d < 16)%N.
Proof. destruct 1; lia. Qed.
Lemma hexquad_spec a b c d u : hexquad a b c d = Some u <-> hex4 [a; b; c; d] u.
Proof.
  unfold hexquad. split.
  - destruct (hexv a) as [x|] eqn:A; [|discriminate]. destruct (hexv b) as [y|] eqn:B; [|discriminate]. destruct (hexv c) as [z|] eqn:C; [|discriminate].
    destruct (hexv d) as [w|] eqn:D; [|discriminate]. intros H. injection H as <-. replace (((x * 16 + y) * 16 + z) * 16 + w)%N with (4096 * x + 256 * y + 16 * z + w)%N by lia.
    apply h_4; now apply hexv_spec.
  - intros H. inversion H; subst.
    repeat match goal with H : hexdigit _ _ |- _ => apply hexv_spec in H end. repeat match goal with H : hexv _ = _ |- _ => rewrite H; clear H end. f_equal. lia.
Qed.
Lemma hex4_lt q u : hex4 q u -> (u < 65536)%N.
Proof. destruct 1 as [a b c d x y z w A B C D]. apply hexdigit_lt in A, B, C, D. lia. Qed.
Lemma hex4_shape q u : hex4 q u -> exists a b c d, q = [a; b; c; d].
Proof. destruct 1 as [a b c d]. now exists a, b, c, d. Qed.
Lemma junesc_spec e x : junesc e = Some x <-> In (e, x) [(34, 34); (92, 92); (47, 47); (98, 8); (102, 12); (110, 10); (114, 13); (116, 9)]%N.
Proof.
  split.
  - unfold junesc. intros H. destruct e as [|p]; [discriminate|].
    do 8 (try (destruct p as [p|p|]; try discriminate H)); injection H as <-; cbn; tauto.
  - cbn. intros H. repeat destruct H as [H|H]; try (injection H as <- <-; reflexivity). contradiction.
Qed.
Lemma trailing_spec c k : trailing c = Some k <-> ((c < 128)%N /\ k = 0) \/ ((192 <= c <= 223)%N /\ k = 1) \/ ((224 <= c <= 239)%N /\ k = 2) \/ ((240 <= c <= 247)%N /\ k = 3).
Proof.
  unfold trailing. destruct (N.leb_spec c 127); destruct (N.leb_spec c 191); destruct (N.leb_spec c 223); destruct (N.leb_spec c 239); destruct (N.leb_spec c 247); try lia;
  (split; [intros E; try discriminate E; injection E as <-; lia | intros E; try (exfalso; lia); f_equal; lia]).
Qed.
Lemma is_trail_spec c : is_trail c = true <-> cont c.
Proof. unfold is_trail, cont. rewrite Bool.andb_true_iff, !N.leb_le. tauto. Qed.
Lemma consm_some x o w r : consm x o = Some (w, r) -> exists w', o = Some (w', r) /\ w = x ++ w'.
Proof. destruct o as [[w' r']|]; cbn; [|discriminate]. intros H. injection H as <- <-. eauto. Qed.
Lemma chars_sound : forall m s, length s <= m -> forall v r, p_chars 0 s = Some (v, r) -> exists l, s = l ++ 34%N :: r /\ jchars l v.
Proof.
  induction m as [|m IH]; intros s L v r H; (destruct s as [|c s]; [discriminate H|]); [cbn in L; lia|]. cbn [length] in L.
  cbn [p_chars] in H. destruct (N.eqb_spec c QUOTE) as [->|NQ]; [injection H as <- <-; exists []; split; [reflexivity | constructor]|].
  destruct (N.eqb_spec c 92) as [->|NB].
  - destruct s as [|e s]; [discriminate H|]. cbn [length] in L. destruct (N.eqb_spec e 117) as [->|NU].
    + destruct s as [|a [|b [|c [|d s]]]]; try discriminate H. cbn [length] in L. destruct (hexquad a b c d) as [u|] eqn:Q; [|discriminate H]. apply hexquad_spec in Q.
      pose proof (hex4_lt _ _ Q) as UL.
      destruct (N.leb_spec 56320 u); destruct (N.leb_spec u 57343); cbn [andb] in H; try discriminate H; destruct (N.leb_spec 55296 u); destruct (N.leb_spec u 56319); cbn [andb] in H; try lia.
      2:{ destruct s as [|s1 [|s2 [|a' [|b' [|c2 [|d' s]]]]]]; try discriminate H. destruct (N.eqb_spec s1 92) as [->|]; [|discriminate H]. destruct (N.eqb_spec s2 117) as [->|]; [|discriminate H]. cbn [andb] in H.
          destruct (hexquad a' b' c2 d') as [lo|] eqn:Q'; [|discriminate H]. apply hexquad_spec in Q'.
          destruct (N.leb_spec 56320 lo); [|discriminate H]. destruct (N.leb_spec lo 57343); [|discriminate H]. cbn [andb] in H.
          apply consm_some in H as (v' & H & ->). cbn [length] in L. apply IH in H as (l & -> & J); [|lia].
          exists (BACKSLASH :: 117%N :: [a; b; c; d] ++ BACKSLASH :: 117%N :: [a'; b'; c2; d'] ++ l). split; [reflexivity|].
          apply c_pair with (hi := (u - 55296)%N) (lo := (lo - 56320)%N); auto; try lia.
          - now replace (55296 + (u - 55296))%N with u by lia.
          - now replace (56320 + (lo - 56320))%N with lo by lia.
          - replace (65536 + 1024 * (u - 55296) + (lo - 56320))%N with (65536 + (u - 55296) * 1024 + (lo - 56320))%N by lia. apply utf8_encodes. lia. }
      all: apply consm_some in H as (v' & H & ->).
      all: destruct (IH s ltac:(lia) v' r H) as (l & -> & J).
      all: exists (BACKSLASH :: 117%N :: [a; b; c; d] ++ l); refine (conj eq_refl _); apply c_u with (u := u); auto; try (apply utf8_encodes); lia.
    + destruct (junesc e) as [x|] eqn:X; [|discriminate H]. apply junesc_spec in X. apply consm_some in H as (v' & H & ->). apply IH in H as (l & -> & J); [|lia].
      exists (BACKSLASH :: e :: l). split; [reflexivity|]. now apply c_esc.
  - destruct (trailing c) as [k|] eqn:T; [|discriminate H]. apply trailing_spec in T. apply consm_some in H as (v' & H & ->).
    destruct T as [[C ->]|[[C ->]|[[C ->]|[C ->]]]].
    + apply IH in H as (l & -> & J); [|lia]. exists (c :: l). split; [reflexivity|]. now apply c_plain.
    + destruct s as [|a s]; [discriminate H|]. cbn [p_chars] in H. destruct (is_trail a) eqn:A; [|discriminate H]. apply consm_some in H as (v2 & H & ->). cbn [length] in L.
      apply IH in H as (l & -> & J); [|lia]. apply is_trail_spec in A. exists (c :: a :: l). split; [reflexivity|]. now apply c_2.
    + destruct s as [|a s]; [discriminate H|]. cbn [p_chars] in H. destruct (is_trail a) eqn:A; [|discriminate H]. apply consm_some in H as (v2 & H & ->). cbn [length] in L.
      destruct s as [|b s]; [discriminate H|]. cbn [p_chars] in H. destruct (is_trail b) eqn:B; [|discriminate H]. apply consm_some in H as (v3 & H & ->). cbn [length] in L.
      apply IH in H as (l & -> & J); [|lia]. apply is_trail_spec in A, B. exists (c :: a :: b :: l). split; [reflexivity|]. now apply c_3.
    + destruct s as [|a s]; [discriminate H|]. cbn [p_chars] in H. destruct (is_trail a) eqn:A; [|discriminate H]. apply consm_some in H as (v2 & H & ->). cbn [length] in L.
      destruct s as [|b s]; [discriminate H|]. cbn [p_chars] in H. destruct (is_trail b) eqn:B; [|discriminate H]. apply consm_some in H as (v3 & H & ->). cbn [length] in L.
      destruct s as [|d s]; [discriminate H|]. cbn [p_chars] in H. destruct (is_trail d) eqn:D; [|discriminate H]. apply consm_some in H as (v4 & H & ->). cbn [length] in L.
      apply IH in H as (l & -> & J); [|lia]. apply is_trail_spec in A, B, D. exists (c :: a :: b :: d :: l). split; [reflexivity|]. now apply c_4.
Qed.
Lemma p_trail k c r : cont c -> p_chars (S k) (c :: r) = consm [c] (p_chars k r).
Proof. intros C. cbn [p_chars]. now rewrite (proj2 (is_trail_spec c) C). Qed.
Lemma p_lead c r k : trailing c = Some k -> c <> 34%N -> c <> BACKSLASH -> p_chars 0 (c :: r) = consm [c] (p_chars k r).
Proof. intros T Q B. cbn [p_chars]. rewrite (proj2 (N.eqb_neq c QUOTE)) by auto. rewrite (proj2 (N.eqb_neq c 92)) by auto. now rewrite T. Qed.
Lemma p_unicode q u r : hex4 q u -> p_chars 0 (BACKSLASH :: 117%N :: q ++ r) =
  if ((56320 <=? u) && (u <=? 57343))%N then None
  else if ((55296 <=? u) && (u <=? 56319))%N then
    match r with
    | s1 :: s2 :: a' :: b' :: c2 :: d' :: r3 =>
        if N.eqb s1 92 && N.eqb s2 117 then
          match hexquad a' b' c2 d' with
          | Some lo => if ((56320 <=? lo) && (lo <=? 57343))%N then consm (utf8 (65536 + (u - 55296) * 1024 + (lo - 56320))) (p_chars 0 r3) else None
          | None => None
          end
        else None
    | _ => None
    end
  else consm (utf8 u) (p_chars 0 r).
Proof. intros H. pose proof H as H'. destruct H' as [a b c d x y z w A B C D]. apply hexquad_spec in H. cbn [app p_chars]. change (N.eqb BACKSLASH QUOTE) with false. change (N.eqb BACKSLASH 92) with true. change (N.eqb 117 117) with true. cbn match. now rewrite H. Qed.
Lemma chars_complete l v r : jchars l v -> p_chars 0 (l ++ 34%N :: r) = Some (v, r).
Proof.
  induction 1 as [|c s v C Q B _ IH|c a s v C A _ IH|c a b s v C A B _ IH|c a b d s v C A B D _ IH|e x s v X _ IH|q u w s v Q U W _ IH|q q' hi lo w s v Q Q' HI LO W _ IH]; [reflexivity|..]; cbn [app].
  - rewrite (p_lead c _ 0) by (auto; apply trailing_spec; lia). now rewrite IH.
  - rewrite (p_lead c _ 1) by (unfold BACKSLASH; try apply trailing_spec; lia). rewrite p_trail by auto. now rewrite IH.
  - rewrite (p_lead c _ 2) by (unfold BACKSLASH; try apply trailing_spec; lia). rewrite !p_trail by auto. now rewrite IH.
  - rewrite (p_lead c _ 3) by (unfold BACKSLASH; try apply trailing_spec; lia). rewrite !p_trail by auto. now rewrite IH.
  - cbn [p_chars]. change (N.eqb BACKSLASH QUOTE) with false. change (N.eqb BACKSLASH 92) with true. cbn match.
    rewrite (proj2 (N.eqb_neq e 117)). { apply junesc_spec in X. rewrite X, IH. reflexivity. }
    intros ->. cbn in X. repeat destruct X as [X|X]; try discriminate X. contradiction.
  - rewrite <- app_assoc, (p_unicode q u) by auto. pose proof (hex4_lt _ _ Q).
    replace ((56320 <=? u) && (u <=? 57343))%N with false by (symmetry; apply Bool.andb_false_iff; rewrite !N.leb_gt; lia).
    replace ((55296 <=? u) && (u <=? 56319))%N with false by (symmetry; apply Bool.andb_false_iff; rewrite !N.leb_gt; lia).
    rewrite IH. apply encodes_fun in W. subst w. reflexivity.
  - repeat rewrite <- app_assoc. cbn [app]. rewrite <- app_assoc. rewrite (p_unicode q (55296 + hi)) by auto.
    rewrite (proj2 (N.leb_gt 56320 _)), (proj2 (N.leb_le 55296 _)), (proj2 (N.leb_le _ 56319)) by lia. cbn [andb].
    destruct (hex4_shape _ _ Q') as (a & b & c & d & ->). cbn [app]. change (N.eqb BACKSLASH 92 && N.eqb 117 117) with true. cbn match.
    apply hexquad_spec in Q'. rewrite Q'. rewrite (proj2 (N.leb_le 56320 _)), (proj2 (N.leb_le _ 57343)) by lia. cbn [andb].
    rewrite IH. apply encodes_fun in W. subst w. cbn [consm]. do 3 f_equal. f_equal. lia.
Qed.

(** ** Numbers *)
Lemma is_digit_in c : is_digit c = true <-> (48 <= c <= 57)%N.
Proof. unfold is_digit. rewrite Bool.andb_true_iff, !N.leb_le. tauto. Qed.
Lemma digits_of_sound s d r : digits_of s = (d, r) -> s = d ++ r /\ (forall c, In c d -> (48 <= c <= 57)%N).
Proof.
  revert d r. induction s as [|c s IH]; cbn [digits_of]; intros d r H; [injection H as <- <-; split; [reflexivity | intros c []]|].
  destruct (is_digit c) eqn:D; [|injection H as <- <-; split; [reflexivity | intros x []]].
  destruct (digits_of s) as [d' r'] eqn:E. injection H as <- <-. destruct (IH d' r' eq_refl) as [-> F]. split; [reflexivity|]. intros x [<-|I]; [now apply is_digit_in | auto].
Qed.
Definition follows (P : byte -> bool) (r : bytes) : Prop := match r with [] => True | c :: _ => P c = false end.
Lemma digits_of_complete d r : (forall c, In c d -> (48 <= c <= 57)%N) -> follows is_digit r -> digits_of (d ++ r) = (d, r).
Proof.
  intros D F. induction d as [|c d IH].
  - cbn [app]. destruct r as [|c r]; auto. cbn in *. now rewrite F.
  - cbn [app digits_of]. rewrite (proj2 (is_digit_in c) (D c (or_introl eq_refl))). rewrite IH; auto. intros x I. apply D. now right.
Qed.
(** what can come after a value *)
Definition after (c : byte) : bool := (jspace c || N.eqb c 44 || N.eqb c 125 || N.eqb c 93)%N.
Definition ends (r : bytes) : Prop := match r with [] => True | c :: _ => after c = true end.
Lemma number_sound s d r : p_number s = Some (d, r) -> s = d ++ r /\ number d.
Proof.
  unfold p_number. intros H.
  set (ms := match s with c :: r => if N.eqb c 45 then ([c], r) else ([], s) | [] => ([], []) end) in H.
  assert (M : s = fst ms ++ snd ms /\ (fst ms = [] \/ fst ms = str "-")).
  { unfold ms. destruct s as [|c s']; [split; [reflexivity | now left]|]. destruct (N.eqb_spec c 45) as [->|]; split; try reflexivity; [now right | now left]. }
  destruct ms as [m s1]. cbn [fst snd] in M. destruct M as [-> M].
  destruct (p_int s1) as [[i s2]|] eqn:I; [|discriminate H]. destruct (p_frac s2) as [[f s3]|] eqn:F; [|discriminate H]. destruct (p_exp s3) as [[e s4]|] eqn:E; [|discriminate H].
  injection H as <- <-.
  assert (I' : s1 = i ++ s2 /\ (i = str "0" \/ (digits i /\ hd 0%N i <> 48%N))).
  { unfold p_int in I. destruct s1 as [|c s1]; [discriminate I|]. destruct (N.eqb_spec c 48) as [->|NZ]; [injection I as <- <-; split; [reflexivity | now left]|].
    destruct (is_digit c) eqn:D; [|discriminate I]. injection I as I. cbn [digits_of] in I. rewrite D in I. destruct (digits_of s1) as [d' r'] eqn:E'. injection I as <- <-.
    apply digits_of_sound in E' as [-> DD]. split; [reflexivity|]. right. split; [|exact NZ]. split; [discriminate|]. intros x [<-|X]; [now apply is_digit_in | auto]. }
  assert (F' : s2 = f ++ s3 /\ (f = [] \/ exists d, digits d /\ f = 46%N :: d)).
  { unfold p_frac in F. destruct s2 as [|c s2]; [injection F as <- <-; auto|]. destruct (N.eqb_spec c 46) as [->|]; [|injection F as <- <-; auto].
    destruct (digits_of s2) as [[|x d] r'] eqn:D; [discriminate F|]. injection F as <- <-. apply digits_of_sound in D as [-> DD]. split; [reflexivity|]. right. exists (x :: d). split; [split; [discriminate | auto] | reflexivity]. }
  assert (E' : s3 = e ++ s4 /\ (e = [] \/ exists x sg d, (x = 101 \/ x = 69)%N /\ (sg = [] \/ sg = str "+" \/ sg = str "-") /\ digits d /\ e = x :: sg ++ d)).
  { unfold p_exp in E. destruct s3 as [|c s3]; [injection E as <- <-; auto|]. destruct (N.eqb c 101 || N.eqb c 69)%N eqn:X; [|injection E as <- <-; auto].
    apply Bool.orb_true_iff in X. rewrite !N.eqb_eq in X.
    set (gs := match s3 with x :: r1 => if (N.eqb x 43 || N.eqb x 45)%N then ([x], r1) else ([], s3) | [] => ([], []) end) in E.
    assert (G : s3 = fst gs ++ snd gs /\ (fst gs = [] \/ fst gs = str "+" \/ fst gs = str "-")).
    { unfold gs. destruct s3 as [|y s3']; [split; [reflexivity | now left]|]. destruct (N.eqb_spec y 43) as [->|]; [split; [reflexivity | right; now left]|].
      destruct (N.eqb_spec y 45) as [->|]; cbn [orb fst snd]; split; try reflexivity; [now right; right | now left]. }
    destruct gs as [sg r1]. cbn [fst snd] in G. destruct G as [-> G]. destruct (digits_of r1) as [[|z d] r'] eqn:D; [discriminate E|]. injection E as <- <-.
    apply digits_of_sound in D as [-> DD]. split; [cbn [app]; f_equal; rewrite <- app_assoc; reflexivity|]. right. exists c, sg, (z :: d). split; [exact X|]. split; [exact G|]. split; [split; [discriminate | exact DD] | reflexivity]. }
  destruct I' as [-> I']. destruct F' as [-> F']. destruct E' as [-> E']. split; [now rewrite <- !app_assoc|]. exists m, i, f, e. auto.
Qed.
Lemma after_not c : after c = true -> is_digit c = false /\ c <> 46%N /\ c <> 101%N /\ c <> 69%N.
Proof.
  unfold after, jspace. intros H. repeat rewrite Bool.orb_true_iff in H. rewrite !N.eqb_eq in H.
  assert (c = 32 \/ c = 9 \/ c = 10 \/ c = 13 \/ c = 44 \/ c = 125 \/ c = 93)%N as K by tauto. clear H. repeat destruct K as [-> | K]; try subst c; repeat split; discriminate.
Qed.
Lemma number_complete d r : number d -> ends r -> p_number (d ++ r) = Some (d, r).
Proof.
  intros (m & i & f & e & -> & M & I & F & E) A. rewrite <- !app_assoc.
  (* the exponent *)
  assert (PE : p_exp (e ++ r) = Some (e, r)).
  { destruct E as [->|(x & sg & d & X & G & [DN DD] & ->)].
    - cbn [app]. destruct r as [|c r]; auto. cbn [ends] in A. destruct (after_not c A) as (_ & _ & A1 & A2). unfold p_exp. rewrite (proj2 (N.eqb_neq c 101)), (proj2 (N.eqb_neq c 69)) by auto. reflexivity.
    - cbn [app]. unfold p_exp. replace (N.eqb x 101 || N.eqb x 69)%N with true by (destruct X as [-> | ->]; reflexivity). rewrite <- app_assoc.
      assert (FD : follows is_digit r) by (destruct r as [|c r]; cbn in *; auto; now apply after_not).
      pose proof (digits_of_complete d r DD FD) as K. destruct d as [|y d]; [congruence|].
      destruct G as [-> | [-> | ->]]; cbn [app str].
      + assert (Y : (48 <= y <= 57)%N) by (apply DD; now left). rewrite (proj2 (N.eqb_neq y 43)), (proj2 (N.eqb_neq y 45)) by lia. cbn [orb]. cbn [app] in K. rewrite K. reflexivity.
      + cbn [app] in K. change (N_of_ascii "+") with 43%N. cbn [N.eqb Pos.eqb orb]. rewrite K. reflexivity.
      + cbn [app] in K. change (N_of_ascii "-") with 45%N. cbn [N.eqb Pos.eqb orb]. rewrite K. reflexivity. }
  assert (HE : match e ++ r with [] => True | c :: _ => is_digit c = false /\ c <> 46%N end).
  { destruct E as [->|(x & sg & d & X & _ & _ & ->)]; cbn [app]; [|destruct X as [-> | ->]; (split; [reflexivity | intros Y; discriminate Y])].
    destruct r as [|c r]; auto. cbn in A. now apply after_not in A as (A1 & A2 & _). }
  assert (PF : p_frac (f ++ e ++ r) = Some (f, e ++ r)).
  { destruct F as [->|(d & [DN DD] & ->)]; cbn [app]; unfold p_frac.
    - destruct (e ++ r) as [|c s]; auto. destruct HE as [_ HE]. now rewrite (proj2 (N.eqb_neq c 46)).
    - change (N.eqb 46 46) with true. cbn match. rewrite digits_of_complete; auto; [|destruct (e ++ r); [exact Logic.I | apply HE]]. destruct d; [congruence | reflexivity]. }
  assert (HF : follows is_digit (f ++ e ++ r)).
  { destruct F as [->|(d & _ & ->)]; cbn [app follows]; [|reflexivity]. destruct (e ++ r); [exact Logic.I | apply HE]. }
  assert (PI : p_int (i ++ f ++ e ++ r) = Some (i, f ++ e ++ r)).
  { destruct I as [-> | [[IN ID] H0]]; [reflexivity|]. destruct i as [|c i]; [congruence|]. cbn [hd] in H0. unfold p_int. cbn [app].
    rewrite (proj2 (N.eqb_neq c 48)) by auto. rewrite (proj2 (is_digit_in c)) by (apply ID; now left). f_equal. exact (digits_of_complete (c :: i) _ ID HF). }
  assert (HI : exists c s, i ++ f ++ e ++ r = c :: s /\ c <> 45%N).
  { destruct I as [-> | [[IN ID] _]]; [eexists; eexists; split; [reflexivity | discriminate]|]. destruct i as [|c i]; [congruence|]. eexists; eexists; split; [reflexivity|]. specialize (ID c (or_introl eq_refl)). lia. }
  unfold p_number. destruct M as [-> | ->].
  - cbn [app]. destruct HI as (c & s & HI & NC). rewrite HI. rewrite (proj2 (N.eqb_neq c 45)) by auto. rewrite <- HI, PI, PF, PE. reflexivity.
  - cbn [app str]. change (N_of_ascii "-") with 45%N. change (N.eqb 45 45) with true. cbn match. rewrite PI, PF, PE. reflexivity.
Qed.

(** ** Values *)
Lemma atom_sound s t r : p_atom s = Some (t, r) -> exists d, s = d ++ r /\ jvalue d t.
Proof.
  unfold p_atom. cbn zeta. intros H.
  destruct (drop_prefix (str "true") s) as [r1|] eqn:E1; [injection H as <- <-; apply drop_prefix_spec in E1; eexists; split; [exact E1 | apply v_word; cbn; tauto]|].
  destruct (drop_prefix (str "false") s) as [r1|] eqn:E2; [injection H as <- <-; apply drop_prefix_spec in E2; eexists; split; [exact E2 | apply v_word; cbn; tauto]|].
  destruct (drop_prefix (str "null") s) as [r1|] eqn:E3; [injection H as <- <-; apply drop_prefix_spec in E3; eexists; split; [exact E3 | apply v_word; cbn; tauto]|].
  destruct (p_number s) as [[d r1]|] eqn:N; [|discriminate H]. injection H as <- <-. apply number_sound in N as [-> N]. exists d. split; [reflexivity | now apply v_number].
Qed.
Lemma value_sound f :
  (forall s t r, p_value f s = Some (t, r) -> exists w d, s = w ++ d ++ r /\ blank w /\ jvalue d t) /\
  (forall s ks r, p_members f s = Some (ks, r) -> exists d, s = d ++ 125%N :: r /\ jmembers d ks) /\
  (forall s ks r, p_elems f s = Some (ks, r) -> exists d, s = d ++ 93%N :: r /\ jelements d ks).
Proof.
  induction f as [|f (IV & IM & IE)]; [repeat split; intros; discriminate|]. split; [|split].
  - intros s t r H. cbn [p_value] in H. destruct (jskip_sound s) as (w & E & B & _). destruct (jskip s) as [|c r0]; [discriminate H|]. subst s. exists w.
    destruct (N.eqb_spec c LBRACE) as [->|_].
    { destruct (jskip_sound r0) as (w' & E' & B' & _). destruct (jskip r0) as [|x r'] eqn:J; [discriminate H|]. destruct (N.eqb_spec x RBRACE) as [->|_].
      - injection H as <- <-. subst r0. exists (123%N :: w' ++ [125%N]). split; [cbn [app]; rewrite <- app_assoc; reflexivity|]. split; auto. now apply v_object0.
      - destruct (p_members f r0) as [[ks r1]|] eqn:M; [|discriminate H]. injection H as <- <-. apply IM in M as (d & -> & M). exists (123%N :: d ++ [125%N]).
        split; [cbn [app]; rewrite <- app_assoc; reflexivity|]. split; auto. now apply v_object. }
    destruct (N.eqb_spec c 91) as [->|_].
    { destruct (jskip_sound r0) as (w' & E' & B' & _). destruct (jskip r0) as [|x r'] eqn:J; [discriminate H|]. destruct (N.eqb_spec x 93) as [->|_].
      - injection H as <- <-. subst r0. exists (91%N :: w' ++ [93%N]). split; [cbn [app]; rewrite <- app_assoc; reflexivity|]. split; auto. now apply v_array0.
      - destruct (p_elems f r0) as [[ks r1]|] eqn:M; [|discriminate H]. injection H as <- <-. apply IE in M as (d & -> & M). exists (91%N :: d ++ [93%N]).
        split; [cbn [app]; rewrite <- app_assoc; reflexivity|]. split; auto. now apply v_array. }
    destruct (N.eqb_spec c QUOTE) as [->|_].
    { destruct (p_chars 0 r0) as [[v r']|] eqn:C; [|discriminate H]. injection H as <- <-. apply (chars_sound _ _ (le_n _)) in C as (l & -> & C). exists (34%N :: l ++ [34%N]).
      split; [cbn [app]; rewrite <- app_assoc; reflexivity|]. split; auto. now apply v_string. }
    apply atom_sound in H as (d & -> & V). exists d. auto.
  - intros s ks r H. cbn [p_members] in H. destruct (jskip_sound s) as (w & E & B & _). destruct (jskip s) as [|q r0]; [discriminate H|]. subst s.
    destruct (N.eqb_spec q QUOTE) as [->|_]; [|discriminate H]. destruct (p_chars 0 r0) as [[k r1]|] eqn:C; [|discriminate H]. apply (chars_sound _ _ (le_n _)) in C as (l & -> & C).
    destruct (jskip_sound r1) as (w2 & E2 & B2 & _). destruct (jskip r1) as [|x r2]; [discriminate H|]. subst r1. destruct (N.eqb_spec x 58) as [->|_]; [|discriminate H].
    destruct (p_value f r2) as [[v r3]|] eqn:V; [|discriminate H]. apply IV in V as (w3 & d & -> & B3 & V).
    destruct (jskip_sound r3) as (w4 & E4 & B4 & _). destruct (jskip r3) as [|y r4]; [discriminate H|]. subst r3.
    assert (MM : jmember (w ++ 34%N :: l ++ 34%N :: w2 ++ 58%N :: w3 ++ d ++ w4) k v) by now apply m_member.
    destruct (N.eqb_spec y COMMA) as [->|_].
    + destruct (p_members f r4) as [[ks' r5]|] eqn:M; [|discriminate H]. injection H as <- <-. apply IM in M as (d' & -> & M).
      eexists. split; [|exact (m_more _ _ _ _ _ MM M)]. repeat (rewrite <- app_assoc || cbn [app] || f_equal).
    + destruct (N.eqb_spec y RBRACE) as [->|_]; [|discriminate H]. injection H as <- <-. eexists. split; [|exact (m_one _ _ _ MM)]. repeat (rewrite <- app_assoc || cbn [app] || f_equal).
  - intros s ks r H. cbn [p_elems] in H. destruct (p_value f s) as [[v r3]|] eqn:V; [|discriminate H]. apply IV in V as (w3 & d & -> & B3 & V).
    destruct (jskip_sound r3) as (w4 & E4 & B4 & _). destruct (jskip r3) as [|y r4]; [discriminate H|]. subst r3.
    destruct (N.eqb_spec y COMMA) as [->|_].
    + destruct (p_elems f r4) as [[ks' r5]|] eqn:M; [|discriminate H]. injection H as <- <-. apply IE in M as (d' & -> & M).
      eexists. split; [|exact (l_more _ _ _ _ _ _ B3 V B4 M)]. repeat (rewrite <- app_assoc || cbn [app] || f_equal).
    + destruct (N.eqb_spec y 93) as [->|_]; [|discriminate H]. injection H as <- <-. eexists. split; [|exact (l_one _ _ _ _ B3 V B4)]. repeat (rewrite <- app_assoc || cbn [app] || f_equal).
Qed.
(** ** Completeness *)
Lemma number_head d : number d -> exists c r, d = c :: r /\ (c = 45 \/ 48 <= c <= 57)%N.
Proof.
  intros (m & i & f & e & -> & [-> | ->] & I & _); [|eexists; eexists; split; [reflexivity | now left]].
  destruct I as [-> | [[IN ID] _]]; [eexists; eexists; split; [reflexivity | right; split; discriminate]|]. destruct i as [|c i]; [congruence|]. eexists; eexists; split; [reflexivity|]. right. apply ID. now left.
Qed.
Lemma atom_complete d t r : (number d \/ In d [str "true"; str "false"; str "null"]) -> t = Node d [] -> ends r -> p_atom (d ++ r) = Some (t, r).
Proof.
  intros H -> A. unfold p_atom. cbn zeta.
  destruct H as [H|H].
  - destruct (number_head d H) as (c & r0 & E & C). pose proof (number_complete d r H A) as P. rewrite P.
    assert (X : forall x w, (x < 45 \/ 57 < x)%N -> drop_prefix (x :: w) (d ++ r) = None).
    { intros x w L. rewrite E. cbn [app drop_prefix]. rewrite (proj2 (N.eqb_neq x c)) by lia. reflexivity. }
    change (str "true") with (116%N :: str "rue"). change (str "false") with (102%N :: str "alse"). change (str "null") with (110%N :: str "ull"). rewrite !X by lia. reflexivity.
  - assert (D : drop_prefix d (d ++ r) = Some r) by now apply drop_prefix_spec. cbn [In] in H. destruct H as [<-|[<-|[<-|[]]]]; [now rewrite D | rewrite D; reflexivity | rewrite D; reflexivity].
Qed.
Lemma jvalue_head d t : jvalue d t -> exists c r, d = c :: r /\ jspace c = false /\ after c = false.
Proof.
  destruct 1 as [s v C|s H|s H| | | |]; try (eexists; eexists; split; [reflexivity | split; reflexivity]).
  - destruct (number_head s H) as (c & r & -> & C). exists c, r. split; auto.
    assert (forall x, x <> 45%N -> (x < 48 \/ 57 < x)%N -> N.eqb c x = false) as NE by (intros x X1 X2; apply N.eqb_neq; lia).
    unfold after, jspace. rewrite (NE 32%N), (NE 9%N), (NE 10%N), (NE 13%N), (NE 44%N), (NE 125%N), (NE 93%N) by lia. auto.
  - cbn [In] in H. destruct H as [<-|[<-|[<-|[]]]]; eexists; eexists; (split; [reflexivity | split; reflexivity]).
Qed.
Lemma blank_ends w r : blank w -> ends r -> ends (w ++ r).
Proof. destruct w as [|c w]; auto. intros B _. cbn. unfold after. rewrite (proj2 (jspace_in c) (B c (or_introl eq_refl))). reflexivity. Qed.
Definition Pv (d : bytes) (t : ptree) : Prop := forall w r fuel, blank w -> ends r -> 2 * length d <= fuel -> p_value fuel (w ++ d ++ r) = Some (t, r).
Definition Pms (d : bytes) (ks : list (bytes * ptree)) : Prop :=
  (forall r fuel, 2 * length d <= fuel -> p_members fuel (d ++ 125%N :: r) = Some (ks, r)) /\ (forall r, exists c s, jskip (d ++ r) = c :: s /\ c <> 125%N).
Definition Pm (d k : bytes) (t : ptree) : Prop := exists w1 s w2 w3 v w4, d = w1 ++ 34%N :: s ++ 34%N :: w2 ++ 58%N :: w3 ++ v ++ w4 /\ 
  blank w1 /\ jchars s k /\ blank w2 /\ blank w3 /\ blank w4 /\ Pv v t.
Definition Pes (d : bytes) (ks : list (bytes * ptree)) : Prop :=
  (forall r fuel, 2 * length d + 1 <= fuel -> p_elems fuel (d ++ 93%N :: r) = Some (ks, r)) /\ (forall r, exists c s, jskip (d ++ r) = c :: s /\ c <> 93%N).
Lemma member_step d k c : Pm d k c ->
  (forall z x fuel, 2 * length d <= S fuel -> after x = true -> jspace x = false -> p_members (S fuel) (d ++ x :: z) =
     if N.eqb x COMMA then match p_members fuel z with Some (ks, r5) => Some ((k, c) :: ks, r5) | None => None end
     else if N.eqb x RBRACE then Some ([(k, c)], z) else None) /\
  (forall r, exists a s, jskip (d ++ r) = a :: s /\ a <> 125%N) /\ 1 <= length d.
Proof.
  intros (w1 & s & w2 & w3 & v & w4 & -> & B1 & J & B2 & B3 & B4 & V). split; [|split].
  - intros z x fuel L A JX. repeat (rewrite !app_length in L || cbn [length] in L).
    repeat (rewrite <- app_assoc || cbn [app]). cbn [p_members]. rewrite jskip_blank by auto. rewrite jskip_head by reflexivity. change (N.eqb 34 QUOTE) with true. cbn match.
    rewrite (chars_complete s k _ J). rewrite jskip_blank by auto. rewrite jskip_head by reflexivity. change (N.eqb 58 58) with true. cbn match.
    rewrite (V w3 (w4 ++ x :: z) fuel B3 (blank_ends w4 (x :: z) B4 A)) by lia. rewrite jskip_blank by auto. rewrite jskip_head by exact JX. reflexivity.
  - intros r. repeat (rewrite <- app_assoc || cbn [app]). rewrite jskip_blank by auto. rewrite jskip_head by reflexivity. eexists; eexists. split; [reflexivity | discriminate].
  - rewrite app_length. cbn [length]. lia.
Qed.
Lemma head_value w d t : blank w -> jvalue d t -> forall r, exists c s, jskip (w ++ d ++ r) = c :: s /\ c <> 93%N.
Proof.
  intros B V r. rewrite jskip_blank by auto. destruct (jvalue_head d t V) as (c & s & -> & J & A). cbn [app]. rewrite jskip_head by auto. exists c, (s ++ r). split; auto.
  intros ->. discriminate A.
Qed.
Lemma value_complete d t : jvalue d t -> Pv d t.
Proof.
  apply (jvalue_mut (fun d t _ => Pv d t) (fun d ks _ => Pms d ks) (fun d k t _ => Pm d k t) (fun d ks _ => Pes d ks)); clear d t.
  - (* string *) intros s v J w r fuel B A L. cbn [length] in L. destruct fuel as [|f]; [lia|]. cbn [p_value]. rewrite jskip_blank by auto. repeat (rewrite <- app_assoc || cbn [app]).
    rewrite jskip_head by reflexivity. change (N.eqb 34 LBRACE) with false. change (N.eqb 34 91) with false. change (N.eqb 34 QUOTE) with true. cbn match. now rewrite (chars_complete s v).
  - (* number *) intros s NU w r fuel B A L. destruct (number_head s NU) as (c & s' & E & C). assert (L2 : 1 <= length s) by (rewrite E; cbn; lia). destruct fuel as [|f]; [lia|].
    cbn [p_value]. rewrite jskip_blank by auto. pose proof (atom_complete s (Node s []) r (or_introl NU) eq_refl A) as K. rewrite E in *. cbn [app] in *.
    assert (J : jspace c = false). { destruct (jspace c) eqn:X; auto. apply jspace_in in X. cbn in X. exfalso. lia. }
    rewrite jskip_head by auto. unfold LBRACE, QUOTE. rewrite (proj2 (N.eqb_neq c 123)), (proj2 (N.eqb_neq c 91)), (proj2 (N.eqb_neq c 34)) by lia. exact K.
  - (* word *) intros s I w r fuel B A L. pose proof (atom_complete s (Node s []) r (or_intror I) eq_refl A) as K. cbn [In] in I.
    destruct fuel as [|f]; [destruct I as [<-|[<-|[<-|[]]]]; cbn in L; lia|]. cbn [p_value]. rewrite jskip_blank by auto.
    destruct I as [<-|[<-|[<-|[]]]]; exact K.
  - (* empty object *) intros w' B' w r fuel B A L. cbn [length] in L. destruct fuel as [|f]; [lia|]. cbn [p_value]. rewrite jskip_blank by auto. repeat (rewrite <- app_assoc || cbn [app]).
    rewrite jskip_head by reflexivity. change (N.eqb 123 LBRACE) with true. cbn match. rewrite jskip_blank by auto. rewrite jskip_head by reflexivity. reflexivity.
  - (* object *) intros s ks _ (M & HD) w r fuel B A L. cbn [length] in L. rewrite app_length in L. destruct fuel as [|f]; [lia|]. cbn [p_value]. rewrite jskip_blank by auto. repeat (rewrite <- app_assoc || cbn [app]).
    rewrite jskip_head by reflexivity. change (N.eqb 123 LBRACE) with true. cbn match. destruct (HD (125%N :: r)) as (c & s' & E & NE). rewrite E. unfold RBRACE. rewrite (proj2 (N.eqb_neq c 125)) by auto.
    rewrite M by lia. reflexivity.
  - (* empty array *) intros w' B' w r fuel B A L. cbn [length] in L. destruct fuel as [|f]; [lia|]. cbn [p_value]. rewrite jskip_blank by auto. repeat (rewrite <- app_assoc || cbn [app]).
    rewrite jskip_head by reflexivity. change (N.eqb 91 LBRACE) with false. change (N.eqb 91 91) with true. cbn match. rewrite jskip_blank by auto. rewrite jskip_head by reflexivity. reflexivity.
  - (* array *) intros s ks _ (M & HD) w r fuel B A L. cbn [length] in L. rewrite app_length in L. cbn [length] in L. destruct fuel as [|f]; [lia|]. cbn [p_value]. rewrite jskip_blank by auto. repeat (rewrite <- app_assoc || cbn [app]).
    rewrite jskip_head by reflexivity. change (N.eqb 91 LBRACE) with false. change (N.eqb 91 91) with true. cbn match. destruct (HD (93%N :: r)) as (c & s' & E & NE). rewrite E. rewrite (proj2 (N.eqb_neq c 93)) by auto.
    rewrite M by lia. reflexivity.
  - (* one member *) intros s k c _ H. destruct (member_step _ _ _ H) as (S1 & HD & L0). split; auto. intros r fuel L. destruct fuel as [|f]; [lia|]. rewrite S1 by (auto; lia). reflexivity.
  - (* more members *) intros s k c s' ks _ H _ (M & _). destruct (member_step _ _ _ H) as (S1 & HD & L0). split.
    + intros r fuel L. rewrite app_length in L. cbn [length] in L. destruct fuel as [|f]; [lia|]. rewrite <- app_assoc. cbn [app]. rewrite S1 by (auto; lia). change (N.eqb 44 COMMA) with true. cbn match. rewrite M by lia. reflexivity.
    + intros r. rewrite <- app_assoc. apply HD.
  - (* member *) intros w1 s k w2 w3 v c w4 B1 J B2 B3 _ V B4. exists w1, s, w2, w3, v, w4. auto 10.
  - (* one element *) intros w1 v c w2 B1 J V B2. split.
    + intros r fuel L. rewrite !app_length in L. destruct fuel as [|f]; [lia|]. cbn [p_elems]. rewrite <- !app_assoc. rewrite (V w1 (w2 ++ 93%N :: r) f B1 (blank_ends w2 (93%N :: r) B2 eq_refl)) by lia.
      rewrite jskip_blank by auto. rewrite jskip_head by reflexivity. reflexivity.
    + intros r. rewrite <- !app_assoc. now apply (head_value w1 v c).
  - (* more elements *) intros w1 v c w2 s' ks B1 J V B2 _ (M & _). split.
    + intros r fuel L. rewrite !app_length in L. cbn [length] in L. destruct fuel as [|f]; [lia|]. cbn [p_elems]. rewrite <- !app_assoc. cbn [app].
      rewrite (V w1 (w2 ++ 44%N :: s' ++ 93%N :: r) f B1 (blank_ends w2 (44%N :: s' ++ 93%N :: r) B2 eq_refl)) by lia.
      rewrite jskip_blank by auto. rewrite jskip_head by reflexivity. change (N.eqb 44 COMMA) with true. cbn match. rewrite M by lia. reflexivity.
    + intros r. rewrite <- !app_assoc. now apply (head_value w1 v c).
Qed.

(** ** C126: a file is accepted exactly if it is a JSON text, and the tree is the one the text means. *)
Lemma bom_no w v t s : blank w -> jvalue v t -> skip_bom (w ++ v ++ s) = w ++ v ++ s.
Proof.
  intros B V. unfold skip_bom. destruct (drop_prefix [239; 187; 191]%N (w ++ v ++ s)) as [r|] eqn:E; auto. apply drop_prefix_spec in E. exfalso. destruct w as [|c w].
  - destruct V as [s' v' C|s' H|s' H| | | |]; try discriminate E.
    + destruct (number_head s' H) as (c & r' & -> & C). injection E as -> _. lia.
    + cbn [In] in H. destruct H as [<-|[<-|[<-|[]]]]; discriminate E.
  - injection E as -> _. specialize (B 239%N (or_introl eq_refl)). cbn in B. lia.
Qed.
Theorem json_reads_exactly : forall old file t, loadJson old file = (t, Ok tt) <-> json_file file t.
Proof.
  intros old file t. unfold loadJson. split.
  - intros H. destruct (p_value (2 * S (length file)) (skip_bom file)) as [[t' r]|] eqn:V; [|discriminate H]. destruct (jskip_sound r) as (w' & E & B' & _).
    destruct (jskip r) as [|]; [|discriminate H]. injection H as <-. rewrite app_nil_r in E. subst w'. apply value_sound in V as (w & d & E & B & V).
    unfold skip_bom in E. destruct (drop_prefix [239; 187; 191]%N file) as [r'|] eqn:D.
    + apply drop_prefix_spec in D. subst file r'. exists [239; 187; 191]%N, w, d, r. auto 10.
    + subst file. exists [], w, d, r. auto 10.
  - intros (bom & w & v & w' & -> & Bm & B & B' & V). assert (SB : skip_bom (bom ++ w ++ v ++ w') = w ++ v ++ w').
    { destruct Bm as [-> | ->]; [now apply (bom_no w v t) | reflexivity]. }
    assert (EW : ends w') by (destruct w' as [|c w']; cbn; auto; unfold after; now rewrite (proj2 (jspace_in c) (B' c (or_introl eq_refl)))).
    rewrite SB, (value_complete v t V w w' _ B EW) by (rewrite !app_length; lia). now rewrite jskip_all.
Qed.
(** Any other file throws and leaves the tree as it was. *)
Theorem json_rejects : forall old file, (forall t, ~ json_file file t) -> loadJson old file = (old, ParseError).
Proof.
  intros old file H. destruct (loadJson old file) as [t r] eqn:E. assert (K : r = Ok tt \/ (t, r) = (old, ParseError)).
  { unfold loadJson in E. destruct (p_value _ _) as [[a b]|]; [destruct (jskip b)|]; injection E as <- <-; auto. }
  destruct K as [->|K]; auto. apply json_reads_exactly in E. exfalso. now apply (H t).
Qed.
(** A text means at most one tree. *)
Theorem json_one_meaning : forall file t t', json_file file t -> json_file file t' -> t = t'.
Proof. intros file t t' A B. apply (json_reads_exactly pempty) in A, B. congruence. Qed.
(** What saveJson writes is JSON for the tree. *)
Theorem json_writes_json : forall t file, saveJson t = (file, true) -> InfoFile_Props.everywhere utf8_node t -> json_file file t.
Proof.
  intros t file S U. assert (H : snd (saveJson t) = true) by now rewrite S. apply json_saves in H as [D M]. destruct (json_roundtrip t pempty D M U) as (file' & S' & L).
  apply (json_reads_exactly pempty). congruence.
Qed.
Example json_file_case : json_file (str "{ ""a"" : [-1.5e+2, null], ""\u00e4\uD83D\uDE00"": {}}") (Node [] [(str "a", Node [] [([], Node (str "-1.5e+2") []); ([], Node (str "null") [])]); ([195; 164; 240; 159; 152; 128]%N, Node [] [])]).
Proof. apply (json_reads_exactly pempty). vm_compute. reflexivity. Qed.
Example json_not_file : forall t, ~ json_file (str "[01]") t.
Proof. intros t H. apply (json_reads_exactly (Node (str "x") [])) in H. vm_compute in H. discriminate H. Qed.
