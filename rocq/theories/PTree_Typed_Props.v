(** C96: typed reads of the property tree accept exactly the texts of the type. *)
From Verif Require Import PTree_Model PTree_Spec PTree_Proofs TimeString_Props Strings_Model.
Open Scope nat_scope.

(** Text of an integer: blanks, an optional sign, digits, blanks. *)
Definition blanks (s : bytes) : Prop := Forall (fun c => (9 <= c <= 13)%N \/ c = 32%N) s.
Inductive int_text : bytes -> Z -> Prop :=
| it_plain w1 ds w2 : blanks w1 -> blanks w2 -> Forall digit ds -> ds <> [] -> int_text (w1 ++ ds ++ w2) (value ds)
| it_plus w1 ds w2 : blanks w1 -> blanks w2 -> Forall digit ds -> ds <> [] -> int_text (w1 ++ str "+" ++ ds ++ w2) (value ds)
| it_minus w1 ds w2 : blanks w1 -> blanks w2 -> Forall digit ds -> ds <> [] -> int_text (w1 ++ str "-" ++ ds ++ w2) (- value ds).

Lemma space_spec c : is_space c = true <-> (9 <= c <= 13)%N \/ c = 32%N.
Proof. unfold is_space. rewrite orb_true_iff, andb_true_iff, !N.leb_le, N.eqb_eq. lia. Qed.
Lemma digit_spec c : is_digit c = true <-> digit c.
Proof. unfold is_digit, digit. rewrite andb_true_iff, !N.leb_le. lia. Qed.
Lemma skip_ws_split s : exists w, s = w ++ skip_ws s /\ blanks w /\ match skip_ws s with c :: _ => is_space c = false | [] => True end.
Proof.
  induction s as [|c s (w & E & B & H)]; [exists []; repeat split; constructor|]. cbn [skip_ws]. destruct (is_space c) eqn:S.
  - exists (c :: w). cbn [app]. rewrite <- E. split; auto. split; auto. constructor; auto. apply space_spec. auto.
  - exists []. split; auto. split; [constructor|auto].
Qed.
Lemma skip_ws_app w s : blanks w -> skip_ws (w ++ s) = skip_ws s.
Proof. induction 1 as [|c w H B IH]; auto. cbn [app skip_ws]. rewrite (proj2 (space_spec c)); auto. Qed.
Lemma skip_ws_blanks w : blanks w -> skip_ws w = [].
Proof. intros B. rewrite <- (app_nil_r w), skip_ws_app; auto. Qed.
Lemma skip_ws_nil s : skip_ws s = [] -> blanks s.
Proof. intros H. destruct (skip_ws_split s) as (w & E & B & _). rewrite H, app_nil_r in E. subst. auto. Qed.
Lemma take_digits_split s : exists ds r, s = ds ++ r /\ Forall digit ds /\ match r with c :: _ => is_digit c = false | [] => True end.
Proof.
  induction s as [|c s IH]; [exists [], []; repeat split; constructor|]. destruct (is_digit c) eqn:D.
  - destruct IH as (ds & r & -> & F & H). exists (c :: ds), r. split; auto. split; auto. constructor; auto. apply digit_spec; auto.
  - exists [], (c :: s). auto.
Qed.
Lemma blanks_nodigit w : blanks w -> match w with c :: _ => is_digit c = false | [] => True end.
Proof.
  intros B. destruct w as [|c w]; auto. inversion B as [|? ? H _]; subst. destruct (is_digit c) eqn:D; auto. apply digit_spec in D. unfold digit in D. lia.
Qed.
Lemma digit_head ds r c l : ds ++ r = c :: l -> Forall digit ds -> ds <> [] -> digit c.
Proof. destruct ds; [congruence|]. intros E F _. injection E as -> _. inversion F; auto. Qed.

Lemma num_get_core lo hi s neg ds w2 : take_sign (skip_ws s) = (neg, ds ++ w2) -> blanks w2 -> Forall digit ds -> ds <> [] ->
  (lo <= (if neg then - value ds else value ds) <= hi)%Z -> num_get lo hi s = (Some (if neg then - value ds else value ds)%Z, w2).
Proof.
  intros TS B F N R. unfold num_get. rewrite TS.
  assert (T : take_digits 0 (ds ++ w2) = (value ds, w2)) by (apply take_digits_app; auto; apply blanks_nodigit; auto).
  destruct ds as [|c ds]; [congruence|]. cbn [app] in *. rewrite (proj2 (digit_spec c)) by (inversion F; auto). rewrite T.
  replace ((lo <=? (if neg then - value (c :: ds) else value (c :: ds)))%Z && ((if neg then - value (c :: ds) else value (c :: ds)) <=? hi)%Z) with true; auto.
  symmetry. apply andb_true_iff. split; apply Z.leb_le; lia.
Qed.
Lemma parse_int_core s neg ds w2 : take_sign (skip_ws s) = (neg, ds ++ w2) -> blanks w2 -> Forall digit ds -> ds <> [] ->
  (- 2 ^ 31 <= (if neg then - value ds else value ds) < 2 ^ 31)%Z -> parse_int s = Some (if neg then - value ds else value ds)%Z.
Proof.
  intros TS B F N R. unfold parse_int. rewrite (num_get_core INT_MIN INT_MAX s neg ds w2); auto.
  - rewrite skip_ws_blanks by auto. auto.
  - unfold INT_MIN, INT_MAX. lia.
Qed.
Lemma parse_int_complete s z : int_text s z -> (- 2 ^ 31 <= z < 2 ^ 31)%Z -> parse_int s = Some z.
Proof.
  intros H R. destruct H as [w1 ds w2 B1 B2 F N|w1 ds w2 B1 B2 F N|w1 ds w2 B1 B2 F N].
  - apply (parse_int_core _ false ds w2); auto. rewrite skip_ws_app by auto. destruct ds as [|c ds]; [congruence|].
    assert (Dc : digit c) by (inversion F; auto). unfold digit in Dc. cbn [app skip_ws].
    destruct (is_space c) eqn:S; [apply space_spec in S; lia|]. cbn [take_sign]. destruct (N.eqb_spec c 45); [lia|]. destruct (N.eqb_spec c 43); [lia|]. auto.
  - apply (parse_int_core _ false ds w2); auto. rewrite skip_ws_app by auto. reflexivity.
  - apply (parse_int_core _ true ds w2); auto. rewrite skip_ws_app by auto. reflexivity.
Qed.
Lemma parse_int_sound s z : parse_int s = Some z -> int_text s z /\ (- 2 ^ 31 <= z < 2 ^ 31)%Z.
Proof.
  unfold parse_int, num_get. destruct (skip_ws_split s) as (w1 & E & B1 & NS). intros H.
  destruct (take_sign (skip_ws s)) as [neg s1] eqn:TS. destruct s1 as [|c s1]; [discriminate|]. destruct (is_digit c) eqn:D; [|discriminate].
  destruct (take_digits_split (c :: s1)) as (ds & r & E2 & F & NR).
  assert (T : take_digits 0 (c :: s1) = (value ds, r)) by (rewrite E2; apply take_digits_app; auto).
  rewrite T in H. assert (N : ds <> []).
  { intros ->. cbn [app] in E2. subst r. rewrite D in NR. discriminate. }
  destruct ((INT_MIN <=? (if neg then - value ds else value ds))%Z && ((if neg then - value ds else value ds) <=? INT_MAX)%Z) eqn:R; [|discriminate].
  destruct (skip_ws r) eqn:SR; [|discriminate]. injection H as <-. apply skip_ws_nil in SR.
  apply andb_true_iff in R as [R1 R2]. apply Z.leb_le in R1, R2. unfold INT_MIN, INT_MAX in *. split; [|lia].
  rewrite E. unfold take_sign in TS. destruct (skip_ws s) as [|x y] eqn:SW; [discriminate|]. destruct (N.eqb_spec x 45) as [->|N45].
  - injection TS as <- ->. rewrite E2. apply it_minus; auto.
  - destruct (N.eqb_spec x 43) as [->|N43].
    + injection TS as <- ->. rewrite E2. apply it_plus; auto.
    + injection TS as <- -> ->. rewrite E2. apply it_plain; auto.
Qed.
(** getInt succeeds exactly on integer texts in the range of int, and returns their value. *)
Theorem getInt_exact : forall t ns key p, denotes ns key p ->
  (forall z, getX parse_int t ns key = Ok z <->
     exists s, getX parse_string t ns key = Ok s /\ int_text s z /\ (- 2 ^ 31 <= z < 2 ^ 31)%Z) /\
  (forall s, getX parse_string t ns key = Ok s -> (forall z, int_text s z -> ~ (- 2 ^ 31 <= z < 2 ^ 31)%Z) ->
     getX parse_int t ns key = InvalidValue) /\
  (doesKeyExist t ns key = false -> getX parse_int t ns key = InvalidKey).
Proof.
  intros t ns key p D. rewrite (getX_denotes parse_int _ _ _ _ D), (getX_denotes parse_string _ _ _ _ D), (exist_denotes _ _ _ _ D).
  destruct (value_at t p) as [d|]; cbn [parse_string]; [|split; [|split]; intros; try discriminate; auto].
  - split; [|split; [|discriminate]].
    + intros z. split.
      * intros H. exists d. split; auto. apply parse_int_sound. destruct (parse_int d); [congruence|discriminate].
      * intros (s & H & T & R). injection H as <-. rewrite (parse_int_complete d z T R). auto.
    + intros s H NT. injection H as <-. destruct (parse_int d) as [z|] eqn:P; auto. apply parse_int_sound in P as [T R]. exfalso. eapply NT; eauto.
  - split; [discriminate|]. intros (s & H & _). discriminate.
Qed.
Print Assumptions getInt_exact.
(** getBool: the texts true, false, 0, 1 are read as expected, anything that does not contain one of them is rejected. *)
Theorem getBool_accepts : forall t ns key p w1 w2, denotes ns key p -> blanks w1 -> blanks w2 ->
  (getX parse_string t ns key = Ok (w1 ++ str "true" ++ w2) -> getX parse_bool t ns key = Ok true) /\
  (getX parse_string t ns key = Ok (w1 ++ str "false" ++ w2) -> getX parse_bool t ns key = Ok false) /\
  (getX parse_string t ns key = Ok (w1 ++ str "1" ++ w2) -> getX parse_bool t ns key = Ok true) /\
  (getX parse_string t ns key = Ok (w1 ++ str "0" ++ w2) -> getX parse_bool t ns key = Ok false).
Proof.
  intros t ns key p w1 w2 D B1 B2. rewrite (getX_denotes parse_bool _ _ _ _ D), (getX_denotes parse_string _ _ _ _ D).
  destruct (value_at t p) as [d|]; cbn [parse_string]; [|repeat split; intros; discriminate].
  assert (G : forall x b, parse_bool (w1 ++ x ++ w2) = Some b -> Ok d = Ok (w1 ++ x ++ w2) -> match parse_bool d with Some a => Ok a | None => InvalidValue end = Ok b).
  { intros x b P E. injection E as ->. rewrite P. auto. }
  pose proof (skip_ws_blanks w2 B2) as S2. pose proof (blanks_nodigit w2 B2) as ND.
  repeat split; apply G; unfold parse_bool; [unfold num_get; rewrite skip_ws_app by auto|unfold num_get; rewrite skip_ws_app by auto| |].
  - transitivity (match skip_ws w2 with [] => Some true | _ => None end); [reflexivity|rewrite S2; auto].
  - transitivity (match skip_ws w2 with [] => Some false | _ => None end); [reflexivity|rewrite S2; auto].
  - rewrite (num_get_core (- 2 ^ 63) (2 ^ 63 - 1) (w1 ++ str "1" ++ w2) false (str "1") w2); auto; try discriminate.
    + rewrite S2. reflexivity.
    + rewrite skip_ws_app by auto. reflexivity.
    + constructor; [vm_compute; split; discriminate|constructor].
    + cbn. lia.
  - rewrite (num_get_core (- 2 ^ 63) (2 ^ 63 - 1) (w1 ++ str "0" ++ w2) false (str "0") w2); auto; try discriminate.
    + rewrite S2. reflexivity.
    + rewrite skip_ws_app by auto. reflexivity.
    + constructor; [vm_compute; split; discriminate|constructor].
    + cbn. lia.
Qed.
Print Assumptions getBool_accepts.
Example ex_int_text : int_text (str " -42 ") (-42).
Proof. apply (it_minus (str " ") (str "42") (str " ")); repeat constructor; unfold digit; try lia; try discriminate; right; reflexivity. Qed.
