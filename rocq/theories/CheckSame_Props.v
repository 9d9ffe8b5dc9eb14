(** C16, C17, C75: what the member-comparison macros compute. *)
From Verif Require Import Bytes CheckSame_Model.
Open Scope nat_scope.

(** ** Parsing lemmas *)
Lemma check_tokens_eq v x : check_tokens v x = [P x; QM; P true; COL; P false].
Proof. destruct v; reflexivity. Qed.

Lemma conj_cons v s sames : conj_tokens v (s :: sames) =
  check_tokens v s ++ concat (map (fun x => AND :: check_tokens v x) sames).
Proof.
  revert s; induction sames as [|x r IH]; intros s.
  - cbn [conj_tokens map concat]. rewrite app_nil_r. reflexivity.
  - change (conj_tokens v (s :: x :: r)) with (check_tokens v s ++ [AND] ++ conj_tokens v (x :: r)).
    rewrite IH. reflexivity.
Qed.

Lemma parse_tail v : forall sames f, length sames < f -> exists e,
  parse_cond f (P false :: concat (map (fun x => AND :: check_tokens v x) sames)) = Some (e, []) /\ eval e = false.
Proof.
  induction sames as [|x r IH]; intros f Hf.
  - destruct f as [|f]; [cbn in Hf; lia|]. cbn. eexists; split; reflexivity.
  - destruct f as [|f]; [cbn in Hf; lia|]. destruct f as [|f]; [cbn in Hf; lia|].
    destruct (IH (S f)) as (e & He & Ee); [cbn in *; lia|].
    cbn [map concat]. rewrite check_tokens_eq. cbn [app].
    set (tl := concat (map (fun x => AND :: check_tokens v x) r)) in *.
    assert (He' : parse_cond (S (S f)) (P false :: AND :: P x :: QM :: P true :: COL :: P false :: tl) =
                  Some (Cond (And (Prim false) (Prim x)) (Prim true) e, [])).
    { remember (S f) as g. cbn [parse_cond parse_and parse_and_rest].
      assert (T : parse_cond g (P true :: COL :: P false :: tl) = Some (Prim true, COL :: P false :: tl))
        by (subst g; reflexivity).
      rewrite T, He. reflexivity. }
    eexists; split; [exact He'|]. cbn [eval]. rewrite Ee. reflexivity.
Qed.

Lemma value_conj v s sames : value_of (conj_tokens v (s :: sames)) = Some s.
Proof.
  unfold value_of. rewrite conj_cons, check_tokens_eq. cbn [app].
  set (tl := concat (map (fun x => AND :: check_tokens v x) sames)).
  set (n := length (P s :: QM :: P true :: COL :: P false :: tl)).
  assert (Ln : length sames < n).
  { unfold n. cbn [length]. unfold tl. clear. induction sames as [|x r IH]; [cbn; lia|].
    cbn [map concat]. rewrite check_tokens_eq. cbn [app length] in *. lia. }
  destruct (parse_tail v sames n Ln) as (e & He & Ee). fold tl in He.
  assert (X : parse_cond (S n) (P s :: QM :: P true :: COL :: P false :: tl) = Some (Cond (Prim s) (Prim true) e, [])).
  { destruct n as [|m]; [lia|]. remember (S m) as g. cbn [parse_cond parse_and parse_and_rest].
    assert (T : parse_cond g (P true :: COL :: P false :: tl) = Some (Prim true, COL :: P false :: tl))
      by (subst g; reflexivity).
    rewrite T, He. reflexivity. }
  rewrite X. cbn [eval]. rewrite Ee. destruct s; reflexivity.
Qed.

Lemma value_single v s : value_of (check_tokens v s) = Some s.
Proof. exact (value_conj v s []). Qed.
Lemma value_guarded v b s : value_of ([P b; AND] ++ check_tokens v s) = Some (b && s)%bool.
Proof. rewrite check_tokens_eq. destruct b, s; reflexivity. Qed.

(** C16 is false: because the macro body is not parenthesised, M1 && M2 parses as
    X1 ? true : ((F && X2) ? true : F), so a conjunction of macros is the FIRST comparison alone. *)
Theorem conjunction_means_all_refuted : forall v,
  value_of (conj_tokens v [true; false]) = Some true.
Proof. intros v. exact (value_conj v true [false]). Qed.

(** C16, exactly: the conjunction equals the first member comparison; a single macro use, the 3-argument SM_CHECKSAME, a
    use after "b &&", and the accumulation idiom are correct. *)
Theorem check_macros_partial : forall v,
  (forall s rest, value_of (conj_tokens v (s :: rest)) = Some s) /\
  (forall s, value_of (check_tokens v s) = Some s) /\
  (forall s, value_of (check_verbose_tokens v s) = Some s) /\
  (forall b s, value_of ([P b; AND] ++ check_tokens v s) = Some (b && s)%bool) /\
  (forall ms b, accumulate v b ms = Some (b && forallb (fun x => x) ms)%bool).
Proof.
  intros v. repeat split.
  - intros; apply value_conj.
  - intros; apply value_single.
  - intros s. unfold check_verbose_tokens. rewrite value_guarded. reflexivity.
  - intros; apply value_guarded.
  - induction ms as [|m r IH]; intros b; cbn [accumulate forallb]; [rewrite andb_true_r; auto|].
    rewrite value_guarded, IH, andb_assoc. reflexivity.
Qed.

(** C17: null handling and pointee comparison; never dereferences null. *)
Theorem isSame_pointers : forall addr A (heap : addr -> A) eqA p q,
  isSame_ptr addr A heap eqA p q <> None /\
  (isSame_ptr addr A heap eqA p q = Some true <->
     (p = None /\ q = None) \/
     (exists a b, p = Some a /\ q = Some b /\ eqA (heap a) (heap b) = true)).
Proof.
  intros addr A heap eqA [a|] [b|]; cbn; (split; [discriminate|]); split.
  - intros H. right. exists a, b. inversion H; auto.
  - intros [[H _]|(x & y & Hx & Hy & H)]; [discriminate|]. inversion Hx; inversion Hy; subst. f_equal. auto.
  - discriminate.
  - intros [[H _]|(x & y & Hx & Hy & H)]; discriminate.
  - discriminate.
  - intros [[_ H]|(x & y & Hx & Hy & H)]; discriminate.
  - auto.
  - auto.
Qed.

(** C75 is false: objects with equal first member and different second member compare equal. *)
Theorem pair_isBinaryEqual_refuted : forall v, exists a b : pair_obj N,
  m2 a <> m2 b /\ pair_isBinaryEqual N N.eqb v a b = Some true.
Proof.
  intros v. exists (mkPair [0;0;0;1]%N [0;0;0]%N), (mkPair [0;0;0;1]%N [1;2;3]%N).
  split; [discriminate|]. unfold pair_isBinaryEqual.
  exact (value_conj v true [false]).
Qed.

Lemma mat_eqb_eq S (eqS : S -> S -> bool) (H : forall x y, eqS x y = true <-> x = y) a b :
  mat_eqb S eqS a b = true <-> a = b.
Proof.
  revert b; induction a as [|x a IH]; intros [|y b]; cbn; try (split; congruence).
  rewrite andb_true_iff, H, IH. split; [intros [-> ->]; auto|]. intros E; inversion E; auto.
Qed.

(** C75, what holds: Transformation/UncertainVector compare their first member only; HomogeneousPoint and
    UncertainHomogeneousPoint compare everything; UncertainTransformation compares rotation and covariance. *)
Theorem isBinaryEqual_partial : forall S (eqS : S -> S -> bool) v,
  (forall x y, eqS x y = true <-> x = y) ->
  (forall a b : pair_obj S, pair_isBinaryEqual S eqS v a b = Some true <-> m1 a = m1 b) /\
  (forall p q : list S, hp_isBinaryEqual S eqS v p q = Some true <-> p = q) /\
  (forall (p q u w : list S),
     uncertain_isBinaryEqual S eqS v (hp_isBinaryEqual S eqS v p q) u w = Some true <-> p = q /\ u = w) /\
  (forall (a b : pair_obj S) (u w : list S),
     uncertain_isBinaryEqual S eqS v (pair_isBinaryEqual S eqS v a b) u w = Some true <-> m1 a = m1 b /\ u = w).
Proof.
  intros S eqS v H.
  assert (PE : forall a b : pair_obj S, pair_isBinaryEqual S eqS v a b = Some (mat_eqb S eqS (m1 a) (m1 b))).
  { intros a b. unfold pair_isBinaryEqual. exact (value_conj v _ [mat_eqb S eqS (m2 a) (m2 b)]). }
  assert (SB : forall x y : bool, Some x = Some y <-> x = y) by (intros; split; congruence).
  repeat split.
  - rewrite PE, SB. apply mat_eqb_eq; auto.
  - intros E. rewrite PE, SB. apply mat_eqb_eq; auto.
  - unfold hp_isBinaryEqual. rewrite value_single, SB. apply mat_eqb_eq; auto.
  - intros E. unfold hp_isBinaryEqual. rewrite value_single, SB. apply mat_eqb_eq; auto.
  - unfold uncertain_isBinaryEqual, hp_isBinaryEqual in *. rewrite value_single, value_guarded, SB, andb_true_iff in H0.
    eapply mat_eqb_eq; [exact H|]; tauto.
  - unfold uncertain_isBinaryEqual, hp_isBinaryEqual in *. rewrite value_single, value_guarded, SB, andb_true_iff in H0.
    eapply mat_eqb_eq; [exact H|]; tauto.
  - intros [-> ->]. unfold uncertain_isBinaryEqual, hp_isBinaryEqual. rewrite value_single, value_guarded, SB, andb_true_iff.
    split; apply mat_eqb_eq; auto.
  - unfold uncertain_isBinaryEqual in *. rewrite PE, value_guarded, SB, andb_true_iff in H0.
    eapply mat_eqb_eq; [exact H|]; tauto.
  - unfold uncertain_isBinaryEqual in *. rewrite PE, value_guarded, SB, andb_true_iff in H0.
    eapply mat_eqb_eq; [exact H|]; tauto.
  - intros [E ->]. unfold uncertain_isBinaryEqual. rewrite PE, value_guarded, SB, andb_true_iff.
    split; apply mat_eqb_eq; auto.
Qed.

(** cv::Mat: the shape check degenerates to the row count, so matrices of different width are compared
    byte-wise: equal is reported for a 1x1 and a 1x2 matrix with a common prefix, and a wider left matrix makes the
    comparison read past the end of the other one. *)
Definition mat11 := mkMat 1 1 0 0 1 [7%N].
Definition mat12 := mkMat 1 2 0 0 1 [7%N; 9%N].
Theorem cv_isBinaryEqual_refuted : forall v, wf_mat mat11 /\ wf_mat mat12 /\
  cv_isBinaryEqual v mat11 mat12 = Val true /\ cv_isBinaryEqual v mat12 mat11 = UB.
Proof. intros v. repeat split; destruct v; vm_compute; reflexivity. Qed.

Lemma cmp_row_false v a b o1 o2 n : cmp_row v a b o1 o2 n false = Val false.
Proof. destruct n; reflexivity. Qed.
Lemma cmp_rows_false v a b : forall todo r, cmp_rows v a b r todo false = Val false.
Proof. induction todo as [|t IH]; intros r; cbn; auto. rewrite cmp_row_false. apply IH. Qed.

Lemma skipn_nth_cons {A} (l : list A) i x : nth_error l i = Some x -> skipn i l = x :: skipn (i + 1) l.
Proof.
  revert i; induction l as [|y l IH]; intros [|i] H; cbn in *; try discriminate.
  - inversion H; reflexivity.
  - apply IH. exact H.
Qed.

Lemma cmp_row_ok v a b : forall n o1 o2, o1 + n <= length (data a) -> o2 + n <= length (data b) ->
  cmp_row v a b o1 o2 n true = Val (bytes_eqb (firstn n (skipn o1 (data a))) (firstn n (skipn o2 (data b)))).
Proof.
  induction n as [|n IH]; intros o1 o2 H1 H2; [reflexivity|].
  cbn [cmp_row].
  destruct (nth_error (data a) o1) as [x|] eqn:E1; [|apply nth_error_None in E1; lia].
  destruct (nth_error (data b) o2) as [y|] eqn:E2; [|apply nth_error_None in E2; lia].
  rewrite value_single.
  rewrite (skipn_nth_cons _ _ _ E1), (skipn_nth_cons _ _ _ E2). cbn [firstn bytes_eqb].
  destruct (N.eqb x y); cbn [andb]; [|apply cmp_row_false]. apply IH; lia.
Qed.

Lemma firstn_add {A} (l : list A) n m : firstn (n + m) l = firstn n l ++ firstn m (skipn n l).
Proof.
  revert n; induction l as [|x l IH]; intros [|n]; cbn; auto.
  - destruct m; reflexivity.
  - rewrite IH. reflexivity.
Qed.
Lemma skipn_skipn' {A} (l : list A) n m : skipn n (skipn m l) = skipn (n + m) l.
Proof.
  revert l; induction m as [|m IH]; intros l; [rewrite Nat.add_0_r; reflexivity|].
  rewrite Nat.add_succ_r. destruct l as [|x l]; [rewrite !skipn_nil; reflexivity|]. cbn. apply IH.
Qed.
Lemma bytes_eqb_app a b c d : length a = length c ->
  bytes_eqb (a ++ b) (c ++ d) = (bytes_eqb a c && bytes_eqb b d)%bool.
Proof.
  revert c; induction a as [|x a IH]; intros [|y c] L; cbn in *; try discriminate; auto.
  rewrite IH by lia. apply andb_assoc.
Qed.

Lemma cmp_rows_ok v a b w : cols a * elemSize a = w -> cols b * elemSize b = w ->
  forall todo r, r * w + todo * w <= length (data a) -> r * w + todo * w <= length (data b) ->
  cmp_rows v a b r todo true =
    Val (bytes_eqb (firstn (todo * w) (skipn (r * w) (data a))) (firstn (todo * w) (skipn (r * w) (data b)))).
Proof.
  intros Wa Wb. induction todo as [|t IH]; intros r H1 H2; [reflexivity|].
  cbn [cmp_rows]. rewrite Wa, Wb. rewrite cmp_row_ok by lia.
  change (S t * w) with (w + t * w). rewrite !firstn_add, !skipn_skipn'.
  rewrite bytes_eqb_app by (rewrite !firstn_length, !skipn_length; lia).
  replace (w + r * w) with ((r + 1) * w) by lia.
  destruct (bytes_eqb (firstn w (skipn (r * w) (data a))) _); cbn [andb]; [|apply cmp_rows_false].
  apply IH; lia.
Qed.

(** For well-formed matrices of the same shape the answer is byte equality, without undefined reads; different row
    counts give false. *)
Theorem cv_isBinaryEqual_partial : forall v a b, wf_mat a -> wf_mat b ->
  (rows a <> rows b -> cv_isBinaryEqual v a b = Val false) /\
  (rows a = rows b -> cols a = cols b -> elemSize a = elemSize b ->
     cv_isBinaryEqual v a b = Val (bytes_eqb (data a) (data b))).
Proof.
  intros v a b Wa Wb. unfold cv_isBinaryEqual. rewrite value_conj. split.
  - intros H. apply Nat.eqb_neq in H. rewrite H. reflexivity.
  - intros Hr Hc He. rewrite (proj2 (Nat.eqb_eq _ _) Hr).
    unfold wf_mat in *.
    rewrite (cmp_rows_ok v a b (cols a * elemSize a)); try (cbn; rewrite ?Hc, ?He in *; lia).
    cbn [skipn Nat.mul]. rewrite !firstn_all2 by (rewrite ?Hr, ?Hc, ?He in *; lia). reflexivity.
Qed.

Example ex_check : value_of (conj_tokens false [false; true]) = Some false. Proof. reflexivity. Qed.
Example ex_cv : cv_isBinaryEqual true mat12 (mkMat 1 2 0 0 1 [7%N; 8%N]) = Val false /\
  cv_isBinaryEqual true mat12 mat12 = Val true. Proof. vm_compute. auto. Qed.

Print Assumptions conjunction_means_all_refuted.
Print Assumptions check_macros_partial.
Print Assumptions isSame_pointers.
Print Assumptions pair_isBinaryEqual_refuted.
Print Assumptions isBinaryEqual_partial.
Print Assumptions cv_isBinaryEqual_refuted.
Print Assumptions cv_isBinaryEqual_partial.
