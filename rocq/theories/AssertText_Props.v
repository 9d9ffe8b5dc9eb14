(** C141: what the exception of a failed assertion says. *)
From Coq Require Import Reals Lra DecimalString DecimalPos DecimalZ.
From Flocq Require Import Core BinarySingleNaN.
From Verif Require Import Bytes Float64 NumCmp_Model Timer_Model DoubleText_Model TimeString_Props NumCmp_Proofs AssertText_Model.
Open Scope nat_scope.

(** ** Specification *)
(** an int, or a double that is a number; and which real number it is (infinities: beyond every double) *)
Definition numeric (v : cval) : Prop := match v with CI z => (- 2 ^ 31 <= z < 2 ^ 31)%Z | CD d => is_nan d = false end.
Definition real (v : cval) : R := match v with CI z => IZR z | CD d => ext d end.
Inductive rel := RLt | RLe | RGt | RGe | REq | RNe.
Definition sym (r : rel) : bytes :=
  str match r with RLt => " < " | RLe => " <= " | RGt => " > " | RGe => " >= " | REq => " == " | RNe => " != " end.
Definition holds (r : rel) (x y : R) : Prop :=
  match r with RLt => (x < y)%R | RLe => (x <= y)%R | RGt => (x > y)%R | RGe => (x >= y)%R | REq => x = y | RNe => x <> y end.
(** a term of a relation: as written in the program, as printed, and its value *)
Record term := mkT { written : bytes; shown : bytes; val : R }.
Fixpoint rel_text (f : term -> bytes) (t : term) (l : list (rel * term)) : bytes :=
  match l with [] => f t | (r, u) :: q => f t ++ sym r ++ rel_text f u q end.
Fixpoint rel_true (t : term) (l : list (rel * term)) : Prop :=
  match l with [] => True | (r, u) :: q => holds r (val t) (val u) /\ rel_true u q end.

Section Spec.
  Variable E : Type.
  (** evaluating the argument changes nothing *)
  Definition quiet (a : arg E) : Prop := forall e, fst (ev E a e) = e.
  Definition value_of (a : arg E) (e : E) : cval := snd (ev E a e).
  Definition term_of (e : E) (a : arg E) : term := mkT (src E a) (c_print (value_of a e)) (real (value_of a e)).
  Definition zero_t : term := mkT (str "0.0") (str "0.0") 0%R.
  (** the relation each comparing macro is named after *)
  Definition relation (e : E) (m : macro E) : option (term * list (rel * term)) :=
    let t := term_of e in
    match m with
    | A_GE_LT _ v lo hi => Some (t lo, [(RLe, t v); (RLt, t hi)])
    | A_GT_LE _ v lo hi => Some (t lo, [(RLt, t v); (RLe, t hi)])
    | A_GE_LE _ v lo hi => Some (t lo, [(RLe, t v); (RLe, t hi)])
    | A_LT _ v hi => Some (t v, [(RLt, t hi)])
    | A_LE _ v hi => Some (t v, [(RLe, t hi)])
    | A_GT _ v lo => Some (t v, [(RGt, t lo)])
    | A_GE _ v lo => Some (t v, [(RGe, t lo)])
    | A_EQ _ v u => Some (t v, [(REq, t u)])
    | A_NE _ v u => Some (t v, [(RNe, t u)])
    | A_POSITIVE _ v => Some (t v, [(RGt, zero_t)])
    | A_NONNEGATIVE _ v => Some (t v, [(RGe, zero_t)])
    | A_NEGATIVE _ v => Some (t v, [(RLt, zero_t)])
    | A_NONPOSITIVE _ v => Some (t v, [(RLe, zero_t)])
    | A_ZERO _ v => Some (t v, [(REq, zero_t)])
    | _ => None
    end.
  Definition args (m : macro E) : list (arg E) :=
    match m with
    | A_TRUE _ a | A_FALSE _ a | A_POSITIVE _ a | A_NONNEGATIVE _ a | A_NEGATIVE _ a | A_NONPOSITIVE _ a | A_ZERO _ a
    | A_NOTNULL _ a | A_NULL _ a | A_FINITE _ a | A_NOTNAN _ a => [a]
    | A_LT _ a b | A_GE _ a b | A_LE _ a b | A_GT _ a b | A_EQ _ a b | A_NE _ a b => [a; b]
    | A_GE_LT _ a b c | A_GT_LE _ a b c | A_GE_LE _ a b c | A_NEAR _ a b c => [a; b; c]
    end.
End Spec.
Arguments quiet {E}. Arguments value_of {E}. Arguments term_of {E}. Arguments relation {E}. Arguments args {E}.
Arguments assertion {E}. Arguments Threw {E}. Arguments Passed {E}. Arguments sm_throw {E}.

Definition opening (debug : bool) : bytes := str (if debug then "debug assert(" else "assert(").
(** the whole text *)
Definition report (debug : bool) (type function file : bytes) (line : Z) (body message : bytes) : bytes :=
  str "[" ++ type ++ str "] " ++ file ++ str ":" ++ dec line ++ str ": " ++ function ++ str "() " ++ opening debug ++ body ++ message.

(** ** Comparisons *)
Local Open Scope R_scope.
Lemma to_d_real v : numeric v -> is_nan (to_d v) = false /\ ext (to_d v) = real v.
Proof.
  destruct v as [z|d]; cbn [numeric to_d real]; intros H; [|auto].
  destruct (fofZ_correct z) as [V F]; [change (2 ^ 53)%Z with 9007199254740992%Z; change (2 ^ 31)%Z with 2147483648%Z in H; lia|].
  split; [now apply is_nan_finite | rewrite ext_finite by exact F; exact V].
Qed.
Lemma c_lt_real a b : numeric a -> numeric b -> (c_lt a b = true <-> real a < real b).
Proof.
  intros Ha Hb. destruct (to_d_real a Ha) as [Na Ea], (to_d_real b Hb) as [Nb Eb].
  assert (G : fltb (to_d a) (to_d b) = true <-> real a < real b) by (rewrite fltb_ext, Ea, Eb by assumption; reflexivity).
  destruct a as [x|x], b as [y|y]; try exact G. cbn [c_lt real]. rewrite Z.ltb_lt. split; [apply IZR_lt | apply lt_IZR].
Qed.
Lemma c_le_real a b : numeric a -> numeric b -> (c_le a b = true <-> real a <= real b).
Proof.
  intros Ha Hb. destruct (to_d_real a Ha) as [Na Ea], (to_d_real b Hb) as [Nb Eb].
  assert (G : fleb (to_d a) (to_d b) = true <-> real a <= real b) by (rewrite fleb_ext, Ea, Eb by assumption; reflexivity).
  destruct a as [x|x], b as [y|y]; try exact G. cbn [c_le real]. rewrite Z.leb_le. split; [apply IZR_le | apply le_IZR].
Qed.
Lemma c_eq_real a b : numeric a -> numeric b -> (c_eq a b = true <-> real a = real b).
Proof.
  intros Ha Hb. destruct (to_d_real a Ha) as [Na Ea], (to_d_real b Hb) as [Nb Eb].
  assert (G : feqb (to_d a) (to_d b) = true <-> real a = real b) by (rewrite feqb_ext, Ea, Eb by assumption; reflexivity).
  destruct a as [x|x], b as [y|y]; try exact G. cbn [c_eq real]. rewrite Z.eqb_eq. split; [now intros -> | apply eq_IZR].
Qed.
Local Open Scope nat_scope.

Section Proofs.
  Variable E : Type.
  Lemma ev_quiet (a : arg E) e : quiet a -> ev E a e = (e, value_of a e).
  Proof using. intros H. specialize (H e). unfold value_of. destruct (ev E a e) as [e1 v]. cbn in *. now subst. Qed.
  Lemma zero_quiet e : ev E (zero_d E) e = (e, CD fzero).
  Proof using. reflexivity. Qed.
  Lemma cmp_quiet f (a b : arg E) e : quiet a -> quiet b -> cmp E f a b e = (e, f (value_of a e) (value_of b e)).
  Proof using. intros Ha Hb. unfold cmp. now rewrite (ev_quiet a e Ha), (ev_quiet b e Hb). Qed.
  Lemma cmp_zero f (a : arg E) e : quiet a -> cmp E f a (zero_d E) e = (e, f (value_of a e) (CD fzero)).
  Proof using. intros Ha. unfold cmp. now rewrite (ev_quiet a e Ha). Qed.
  Lemma show_quiet (a : arg E) e : quiet a -> show E a e = (e, c_print (value_of a e)).
  Proof using. intros H. unfold show. now rewrite (ev_quiet a e H). Qed.

  Lemma or_quiet p q e b1 b2 : p e = (e, b1) -> q e = (e, b2) -> or_else E p q e = (e, (b1 || b2)%bool).
  Proof using. intros Hp Hq. unfold or_else. rewrite Hp. destruct b1; auto. Qed.

  (** does a macro fail, for arguments without effects *)
  Lemma fails_quiet e (m : macro E) t l : relation e m = Some (t, l) -> Forall quiet (args m) ->
    Forall (fun a => numeric (value_of a e)) (args m) ->
    exists b, fails E m e = (e, b) /\ (b = true <-> ~ rel_true t l).
  Proof using.
    intros Rl Q V. assert (NZ : numeric (CD fzero)) by reflexivity. assert (EZ : real (CD fzero) = 0%R) by reflexivity.
    destruct m; cbn [relation] in Rl; try discriminate Rl; injection Rl as <- <-; cbn [args] in *;
      repeat match goal with H : Forall _ (_ :: _) |- _ => inversion H; clear H; subst | H : Forall _ [] |- _ => clear H end;
      cbn [fails rel_true holds term_of val zero_t]; unfold zero_t; cbn [val].
    all: first [ rewrite cmp_quiet by assumption | rewrite cmp_zero by assumption
               | erewrite or_quiet by (apply cmp_quiet; assumption) ].
    all: eexists; split; [reflexivity|]; unfold ge, gt, ne.
    all: rewrite ?orb_true_iff, ?negb_true_iff.
    all: try (rewrite <- not_true_iff_false).
    all: rewrite ?c_lt_real, ?c_le_real, ?c_eq_real by assumption; rewrite ?EZ.
    all: try lra.
    all: try (split; [intros [H|H] | intros H]; try lra).
    all: try (match goal with |- (?a < ?b)%R \/ _ => destruct (Rlt_le_dec a b); [left; assumption | right; lra]
                            | |- (?a <= ?b)%R \/ _ => destruct (Rle_lt_dec a b); [left; assumption | right; lra] end).
    all: tauto.
  Qed.

  (** the explanation printed, for arguments without effects *)
  Lemma stream_app l1 l2 e e1 t1 : stream E l1 e = (e1, t1) ->
    stream E (l1 ++ l2) e = let (e2, t2) := stream E l2 e1 in (e2, t1 ++ t2).
  Proof using.
    revert e t1. induction l1 as [|p l IH]; intros e t1; cbn [stream app].
    - intros H. injection H as <- <-. destruct (stream E l2 e); reflexivity.
    - destruct (p e) as [e' t'] eqn:P. destruct (stream E l e') as [e'' t''] eqn:S1. intros H. injection H as <- <-.
      rewrite (IH _ _ S1). destruct (stream E l2 e''). now rewrite app_assoc.
  Qed.
  Definition body (t : term) (l : list (rel * term)) : bytes :=
    rel_text written t l ++ str ") failed [" ++ rel_text shown t l ++ str "]: ".
  Lemma explanation_quiet e (m : macro E) t l : relation e m = Some (t, l) -> Forall quiet (args m) ->
    (forall v, m <> A_NONPOSITIVE E v) -> stream E (explanation E m) e = (e, body t l).
  Proof using.
    intros Rl Q NP.
    destruct m; cbn [relation] in Rl; try discriminate Rl; injection Rl as <- <-; cbn [args] in *;
      repeat match goal with H : Forall _ (_ :: _) |- _ => inversion H; clear H; subst | H : Forall _ [] |- _ => clear H end.
    all: cbn [explanation]; unfold two, three, with_zero, lit, name; cbn [stream]; rewrite ?show_quiet by assumption.
    all: unfold body, term_of, zero_t; cbn [rel_text written shown]; try (apply f_equal; unfold sym; rewrite ?app_nil_r, <- ?app_assoc; reflexivity).
    exfalso. now apply (NP v).
  Qed.
End Proofs.

(** *** C141 *)
(** An assertion that compares numbers, with arguments that only look at variables: it passes and changes nothing when the relation it is
    named after holds; when it does not, the exception's text is the type, the position, the relation as written, the relation with the
    values, and the message. *)
Theorem assert_text_partial : forall (E : Type) (debug ndebug always : bool) (m : macro E) type function file line message e t l,
  (debug && ndebug && negb always)%bool = false ->
  relation e m = Some (t, l) -> (forall v, m <> A_NONPOSITIVE E v) ->
  Forall quiet (args m) -> Forall (fun a => numeric (value_of a e)) (args m) ->
  (rel_true t l -> assertion debug ndebug always m type function file line message e = Passed e) /\
  (~ rel_true t l -> forall e' text, message e = (e', text) ->
     assertion debug ndebug always m type function file line message e =
     Threw e' (report debug type function file line
                 (rel_text written t l ++ str ") failed [" ++ rel_text shown t l ++ str "]: ") text)).
Proof.
  intros E debug ndebug always m ty fn fi ln msg e t l A Rl NP Q V.
  destruct (fails_quiet E e m t l Rl Q V) as [b [Fb Sb]]. unfold assertion. rewrite A, Fb.
  split.
  - intros T. destruct b; [|reflexivity]. exfalso. now apply (proj1 Sb).
  - intros NT e' text Hm. destruct b; [|exfalso; assert (K : false = true) by (apply Sb; exact NT); discriminate K].
    change (?x :: ?y ++ ?z) with ((x :: y) ++ z).
    assert (S1 : stream E (lit E (if debug then "debug assert(" else "assert(") :: explanation E m) e = (e, opening debug ++ body t l)).
    { cbn [stream]. unfold lit at 1. now rewrite (explanation_quiet E e m t l Rl Q NP). }
    rewrite (stream_app E _ [msg] e e _ S1). cbn [stream]. rewrite Hm. rewrite app_nil_r.
    unfold exception_text, sfp_text, report, body. f_equal. rewrite <- !app_assoc. reflexivity.
Qed.
Print Assumptions assert_text_partial.

(** What counts as true or as a null pointer: every number but zero. *)
Theorem assert_truth : forall (E : Type) (debug ndebug always : bool) (a : arg E) type function file line message e,
  (debug && ndebug && negb always)%bool = false -> quiet a -> numeric (value_of a e) ->
  let passes m := assertion debug ndebug always m type function file line message e = Passed e in
  (passes (A_TRUE E a) <-> real (value_of a e) <> 0%R) /\ (passes (A_NOTNULL E a) <-> real (value_of a e) <> 0%R) /\
  (passes (A_FALSE E a) <-> real (value_of a e) = 0%R) /\ (passes (A_NULL E a) <-> real (value_of a e) = 0%R).
Proof.
  intros E debug ndebug always a type function file line message e D Q N passes.
  assert (T : c_true (value_of a e) = true <-> real (value_of a e) <> 0%R).
  { unfold c_true, real. destruct (value_of a e) as [z|d]; cbn [numeric] in N.
    - rewrite negb_true_iff, Z.eqb_neq. split; intros H; [intros K; apply eq_IZR in K; auto|intros ->; auto].
    - rewrite negb_true_iff. assert (F : feqb d fzero = true <-> ext d = 0%R). { rewrite feqb_ext by (auto; reflexivity). rewrite (ext_finite fzero) by reflexivity. reflexivity. }
      destruct (feqb d fzero); split; intros H; auto; try discriminate; [exfalso; apply H; tauto|]. intros K. apply F in K. discriminate. }
  assert (EV : ev E a e = (e, value_of a e)) by (unfold value_of; rewrite <- (Q e) at 2; apply surjective_pairing).
  unfold passes, assertion. rewrite D. cbn [fails]. rewrite EV. 
  destruct (c_true (value_of a e)) eqn:C; cbn [negb].
  - assert (real (value_of a e) <> 0%R) by now apply T. 
    repeat split; intros H'; auto; try contradiction; exfalso; destruct (stream _ _ _) as [e2 t]; destruct (message e2); discriminate H'.
  - assert (real (value_of a e) = 0%R). { destruct (Req_dec (real (value_of a e)) 0) as [X|X]; auto. apply T in X. discriminate. }
    repeat split; intros H'; auto; try contradiction; exfalso; destruct (stream _ _ _) as [e2 t]; destruct (message e2); discriminate H'.
Qed.
(** The other assertions. *)
Theorem assert_text_other : forall (E : Type) (debug ndebug always : bool) (a b c : arg E) type function file line message e e' text,
  (debug && ndebug && negb always)%bool = false -> quiet a -> quiet b -> quiet c -> message e = (e', text) ->
  let run := fun m => assertion debug ndebug always m type function file line message e in
  let thrown := fun body => Threw e' (report debug type function file line body text) in
  let v := value_of a e in let w := value_of b e in let x := value_of c e in
  let d := fabs (fsub (to_d w) (to_d v)) in
  run (A_TRUE E a) = (if c_true v then Passed e else thrown (src E a ++ str ") failed: ")) /\
  run (A_FALSE E a) = (if c_true v then thrown (str " not " ++ src E a ++ str ") failed: ") else Passed e) /\
  run (A_NOTNULL E a) = (if c_true v then Passed e else thrown (src E a ++ str " != NULL) failed: ")) /\
  run (A_NULL E a) = (if c_true v then thrown (src E a ++ str " == NULL) failed: ") else Passed e) /\
  run (A_FINITE E a) = (if is_finite (to_d v) then Passed e
                        else thrown (str "isfinite(" ++ src E a ++ str ")) failed [isfinite(" ++ c_print v ++ str ") = false]: ")) /\
  run (A_NOTNAN E a) = (if is_nan (to_d v) then thrown (str "!isnan(" ++ src E a ++ str ")) failed: ") else Passed e) /\
  run (A_NEAR E a b c) = (if fleb d (fabs (to_d x)) then Passed e
                          else thrown (src E a ++ str " == " ++ src E b ++ str ") failed [" ++ c_print v ++ str " == " ++ c_print w ++
                                       str " (" ++ print_double 6 d ++ str " > " ++ print_double 6 (fabs (to_d x)) ++ str ")]: ")) /\
  sm_throw type function file line message e =
    Threw e' (str "[" ++ type ++ str "] " ++ file ++ str ":" ++ dec line ++ str ": " ++ function ++ str "() " ++ text).
Proof.
  intros E debug ndebug always a b c ty fn fi ln msg e e' text A Qa Qb Qc Hm. cbn zeta.
  unfold assertion. rewrite A. cbn [fails]. unfold dist, mag.
  rewrite ?(ev_quiet E a e Qa), ?(ev_quiet E b e Qb), ?(ev_quiet E a e Qa), ?(ev_quiet E c e Qc).
  assert (F : forall l body, stream E l e = (e, body) ->
    (let (e2, t) := stream E (lit E (if debug then "debug assert(" else "assert(") :: l ++ [msg]) e in
     Threw e2 (exception_text ty fn fi ln t)) = Threw e' (report debug ty fn fi ln body text)).
  { intros l bd S1. change (?x :: ?y ++ ?z) with ((x :: y) ++ z).
    assert (S2 : stream E (lit E (if debug then "debug assert(" else "assert(") :: l) e = (e, opening debug ++ bd)).
    { cbn [stream]. unfold lit at 1. now rewrite S1. }
    rewrite (stream_app E _ [msg] e e _ S2). cbn [stream]. rewrite Hm, app_nil_r.
    unfold exception_text, sfp_text, report. f_equal. rewrite <- !app_assoc. reflexivity. }
  refine (conj _ (conj _ (conj _ (conj _ (conj _ (conj _ (conj _ _))))))).
  1, 2, 3, 4: destruct (c_true (value_of a e)); cbn [negb]; try reflexivity; apply F; cbn [explanation stream]; unfold lit, name;
    rewrite ?app_nil_r; reflexivity.
  - destruct (is_finite (to_d (value_of a e))); cbn [negb]; [reflexivity|]. apply F. cbn [explanation stream]. unfold lit, name.
    rewrite (show_quiet E a e Qa). rewrite ?app_nil_r. reflexivity.
  - destruct (is_nan (to_d (value_of a e))); [|reflexivity]. apply F. cbn [explanation stream]. unfold lit, name.
    rewrite ?app_nil_r. reflexivity.
  - match goal with |- context [negb ?x] => destruct x end; cbn [negb]; [reflexivity|]. apply F. cbn [explanation stream].
    unfold lit, name, show_d, dist, mag.
    rewrite ?(show_quiet E a e Qa), ?(show_quiet E b e Qb), ?(ev_quiet E b e Qb), ?(ev_quiet E a e Qa), ?(ev_quiet E c e Qc).
    rewrite ?app_nil_r. reflexivity.
  - unfold sm_throw. rewrite Hm. unfold exception_text, sfp_text. f_equal. rewrite <- !app_assoc. reflexivity.
Qed.
Print Assumptions assert_text_other.

(** In a release build a _DBG assertion evaluates nothing, whatever its arguments do. *)
Theorem debug_assertions_vanish : forall (E : Type) (m : macro E) type function file line message e,
  assertion true true false m type function file line message e = Passed e.
Proof. reflexivity. Qed.
Print Assumptions debug_assertions_vanish.

(** ** The text can be taken apart *)
Lemma split_unique (c : N) a b x y : ~ In c a -> ~ In c b -> a ++ c :: x = b ++ c :: y -> a = b /\ x = y.
Proof.
  revert b. induction a as [|h a IH]; intros [|k b] Ha Hb H; cbn in H.
  - injection H as ->. auto.
  - injection H as -> _. exfalso. apply Hb. now left.
  - injection H as -> _. exfalso. apply Ha. now left.
  - injection H as -> H. destruct (IH b) as [-> ->]; auto; intros K; [apply Ha | apply Hb]; now right.
Qed.
Lemma dec_inj x y : (0 <= x)%Z -> (0 <= y)%Z -> dec x = dec y -> x = y.
Proof. intros Hx Hy H. destruct (dec_spec x Hx) as (_ & <- & _), (dec_spec y Hy) as (_ & <- & _). now rewrite H. Qed.
Lemma dec_no_colon z : (0 <= z)%Z -> ~ In 58%N (dec z).
Proof. intros Hz K. destruct (dec_spec z Hz) as (F & _ & _). rewrite Forall_forall in F. specialize (F _ K). unfold digit in F. lia. Qed.

(** Two exception texts are equal only if type, file, line, function and message are (no ] in the type's name, no colon in the file's, no
    blank in the function's). *)
Theorem exception_text_readable : forall ty fn fi ln m ty' fn' fi' ln' m',
  ~ In 93%N ty -> ~ In 93%N ty' -> ~ In 58%N fi -> ~ In 58%N fi' -> ~ In 32%N fn -> ~ In 32%N fn' -> (0 <= ln)%Z -> (0 <= ln')%Z ->
  exception_text ty fn fi ln m = exception_text ty' fn' fi' ln' m' ->
  ty = ty' /\ fi = fi' /\ ln = ln' /\ fn = fn' /\ m = m'.
Proof.
  intros ty fn fi ln m ty' fn' fi' ln' m' T T' F F' G G' L L' H.
  unfold exception_text, sfp_text in H. cbn [str N_of_ascii] in H. change (N_of_ascii "[") with 91%N in H.
  rewrite <- !app_assoc in H. cbn [app] in H. injection H as H.
  change (N_of_ascii "]") with 93%N in H. change (N_of_ascii " ") with 32%N in H. change (N_of_ascii ":") with 58%N in H.
  change (N_of_ascii "(") with 40%N in H. change (N_of_ascii ")") with 41%N in H.
  apply (split_unique 93%N) in H; auto. destruct H as [-> H]. injection H as H.
  apply (split_unique 58%N) in H; auto. destruct H as [-> H].
  apply (split_unique 58%N) in H; [|now apply dec_no_colon..]. destruct H as [HL H]. apply dec_inj in HL; auto. subst ln'.
  injection H as H.
  replace (fn ++ 40%N :: 41%N :: 32%N :: m) with ((fn ++ [40%N; 41%N]) ++ 32%N :: m) in H by (rewrite <- app_assoc; reflexivity).
  replace (fn' ++ 40%N :: 41%N :: 32%N :: m') with ((fn' ++ [40%N; 41%N]) ++ 32%N :: m') in H by (rewrite <- app_assoc; reflexivity).
  apply (split_unique 32%N) in H.
  - destruct H as [H ->]. apply app_inv_tail in H. auto.
  - rewrite in_app_iff. intros [K | [K | [K | []]]]; [now apply G | discriminate K | discriminate K].
  - rewrite in_app_iff. intros [K | [K | [K | []]]]; [now apply G' | discriminate K | discriminate K].
Qed.
Print Assumptions exception_text_readable.

(** ** What the text gets wrong *)
Definition const (s : string) (v : cval) : arg unit := mkA unit (str s) (fun e => (e, v)).
Definition silent {E} : piece E := fun e => (e, []).
(** SM_ASSERT_NONPOSITIVE(E, x, "") with x = 3 reports a relation that holds: 3 >= 0.0 *)
Theorem nonpositive_text_refuted :
  assertion false false false (A_NONPOSITIVE unit (const "x" (CI 3))) (str "E") (str "f") (str "a.cpp") 7 silent tt =
    Threw tt (str "[E] a.cpp:7: f() assert(x >= 0.0) failed [3 >= 0.0]: ") /\
  holds RGe 3 0.
Proof. split; [vm_compute; reflexivity | cbn [holds]; lra]. Qed.
Print Assumptions nonpositive_text_refuted.
(** arguments with effects are evaluated again for the text: SM_ASSERT_EQ(E, i++, 1, "") with i = 0 fails because 0 is not 1, and
    reports 1 == 1 *)
Definition counter : arg Z := mkA Z (str "i++") (fun e => ((e + 1)%Z, CI e)).
Definition lit1 : arg Z := mkA Z (str "1") (fun e => (e, CI 1)).
Theorem effects_text_refuted :
  assertion false false false (A_EQ Z counter lit1) (str "E") (str "f") (str "a.cpp") 7 silent 0%Z =
    Threw 2%Z (str "[E] a.cpp:7: f() assert(i++ == 1) failed [1 == 1]: ").
Proof. vm_compute. reflexivity. Qed.
Print Assumptions effects_text_refuted.
(** six digits do not tell doubles apart: 1.0000001 == 1 is reported as 1 == 1 *)
Theorem digits_text_refuted :
  assertion false false false (A_EQ unit (const "x" (CD (fdec 10000001 7))) (const "y" (CI 1))) (str "E") (str "f") (str "a.cpp") 7 silent tt =
    Threw tt (str "[E] a.cpp:7: f() assert(x == y) failed [1 == 1]: ").
Proof. vm_compute. reflexivity. Qed.
Print Assumptions digits_text_refuted.

(** ** a concrete case *)
Example ex_range : 
  assertion true false false (A_GE_LT unit (const "i" (CI 12)) (const "0" (CI 0)) (const "n" (CI 10))) (str "IndexError") (str "at") (str "v.hpp")
    31 (fun e => (e, str "no such row")) tt =
  Threw tt (str "[IndexError] v.hpp:31: at() debug assert(0 <= i < n) failed [0 <= 12 < 10]: no such row").
Proof. vm_compute. reflexivity. Qed.
Example ex_range_hyps : let m := A_GE_LT unit (const "i" (CI 12)) (const "0" (CI 0)) (const "n" (CI 10)) in
  Forall quiet (args m) /\ Forall (fun a => numeric (value_of a tt)) (args m) /\
  exists t l, relation tt m = Some (t, l) /\ ~ rel_true t l.
Proof.
  cbn zeta. split; [|split].
  - repeat constructor.
  - repeat constructor; cbn; lia.
  - eexists _, _. split; [reflexivity|]. cbn. lra.
Qed.
