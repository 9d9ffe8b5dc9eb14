(** C131: what a log statement written with the macros does. *)
From Verif Require Import Bytes Float64 Logging_Model Logging_Spec Logging_Proofs Logging_Filter_Props LogMacro_Model.
Open Scope nat_scope.

(** ** Specification: independent of locations, flags, static variables *)
(** the names of the macros' own variables *)
Definition reserved : list bytes := [str "loc"; str "enabled"; str "hit"; str "last_hit"; str "now"; str "ss___"].
Definition same_outside (e e' : env) : Prop := forall x, ~ In x reserved -> e x = e' x.
(** an expression that mentions none of these names *)
Definition ignores_locals {A} (x : expr A) : Prop :=
  forall e e', same_outside e e' ->
  match x e, x e' with
  | Some (f, a), Some (f', a') => a = a' /\ same_outside f f' /\ (forall v, In v reserved -> f v = e v)
  | None, None => True
  | _, _ => False
  end.
Definition plain_rate (r : ratex) : Prop :=
  match r with RVal f => forall e e', same_outside e e' -> f e = f e' | RTern _ _ _ => False end.
(** the statement's stream: the package, or package.name with a literal name *)
Definition stream_of (package : bytes) (u : use) (n : bytes) : Prop :=
  (uname u = None /\ n = package) \/ (exists m, uname u = Some (pure m) /\ n = package ++ str "." ++ m).
Definition clean (u : use) : Prop :=
  ignores_locals (uargs u) /\
  match uvar u with WhenTrue c => ignores_locals c | Throttle r => plain_rate r | _ => True end.
(** the calls of the logging API in a history *)
Definition api (o : op) : bool := match o with Log _ _ _ _ => false | _ => true end.
Fixpoint calls (l : list action) : list op := match l with [] => [] | Call o :: r => o :: calls r | Exec _ _ :: r => calls r end.
Definition api_only (l : list action) : Prop := Forall (fun o => api o = true) (calls l).
(** is the statement on after a history: compiled in, threshold reached, stream enabled *)
Definition on (min : nat) (u : use) (n : bytes) (l : list action) : bool := (min <=? ulevel u) && wanted (calls l) n (ulevel u) true.
Definition of_stmt (id : nat) (x : entry) : bool := Nat.eqb (eid x) id.
(** what it should do: new variables and the message *)
Definition meant (u : use) (on : bool) (e : env) (before : list entry) (id : nat) (now : f64) : option (env * option bytes) :=
  let say e := match uargs u e with Some (e', m) => Some (e', Some m) | None => None end in
  if on then
    match uvar u with
    | Plain => say e
    | WhenTrue c => match c e with Some (e', true) => say e' | Some (e', false) => Some (e', None) | None => None end
    | Once => if existsb (of_stmt id) before then Some (e, None) else say e
    | Throttle r => let last := match List.find (of_stmt id) before with Some x => eclock x | None => fzero end in
                    if fleb (fadd last (rate_value r e)) now then say e else Some (e, None)
    end
  else Some (e, None).
Definition did (s s' : mstate) (e : env) (o : option entry) : Prop :=
  (forall x, menv s' x = e x) /\ mout s' = match o with Some x => x :: mout s | None => mout s end.

(** ** Evaluating in the scope of a macro *)
Lemma lookup_reserved l x v : (forall y w, In (y, w) l -> In y reserved) -> lookup l x = Some v -> In x reserved.
Proof.
  induction l as [|[y w] l IH]; intros H L; cbn in L; [discriminate|]. destruct (bytes_eqb x y) eqn:E.
  - apply bytes_eqb_eq in E. subst. eapply H. left. eauto.
  - apply IH; auto. intros z u I. eapply H. right. eauto.
Qed.
Definition own (l : locals) : Prop := forall y w, In (y, w) l -> In y reserved.
Lemma inside_same l e : own l -> same_outside e (inside l e).
Proof. intros O x N. unfold inside. destruct (lookup l x) eqn:L; auto. exfalso. apply N. eapply lookup_reserved; eauto. Qed.
Lemma eval_in_spec {A} l (x : expr A) e : own l -> ignores_locals x ->
  match x e, eval_in l x e with
  | Some (f, a), Some (f', a') => a = a' /\ forall v, f' v = f v
  | None, None => True
  | _, _ => False
  end.
Proof.
  intros O I. pose proof (I e (inside l e) (inside_same l e O)) as J. pose proof (I (inside l e) (inside l e) (fun _ _ => eq_refl)) as J'. unfold eval_in.
  destruct (x e) as [[f a]|], (x (inside l e)) as [[f' a']|]; auto. destruct J as (-> & S1 & R). destruct J' as (_ & _ & R'). split; auto.
  intros v. unfold outside. destruct (lookup l v) eqn:L.
  - symmetry. apply R. eapply lookup_reserved; eauto.
  - destruct (in_dec (list_eq_dec N.eq_dec) v reserved) as [K|K]; [|symmetry; auto].
    rewrite R, R' by auto. unfold inside. rewrite L. auto.
Qed.
Lemma ignores_ext {A} (x : expr A) e e' : ignores_locals x -> (forall v, e v = e' v) ->
  match x e, x e' with
  | Some (f, a), Some (f', a') => a = a' /\ forall v, f v = f' v
  | None, None => True
  | _, _ => False
  end.
Proof.
  intros I E. pose proof (I e e' (fun v _ => E v)) as J. pose proof (I e' e (fun v _ => eq_sym (E v))) as J'.
  destruct (x e) as [[f a]|], (x e') as [[f' a']|]; auto. destruct J as (-> & S1 & R), J' as (_ & _ & R'). split; auto.
  intros v. destruct (in_dec (list_eq_dec N.eq_dec) v reserved) as [K|K]; [rewrite R, R' by auto; auto|auto].
Qed.

(** ** The locations behave as in C58 *)
(** the history of location operations behind the actions *)
Lemma define_level g id n l c : llevel (gtable (fst (define_location g id n l c)) id) = l.
Proof.
  unfold define_location. cbn [fst]. set (g1 := if linit _ then _ else _). destruct (Nat.eqb (llevel (gtable g1 id)) l) eqn:E; [apply Nat.eqb_eq; auto|].
  unfold check, set_loc. cbn [gtable]. rewrite upd_same. cbn [with_flag llevel]. rewrite upd_same. reflexivity.
Qed.
(** what SMCONSOLE_DEFINE_LOCATION does to the locations, for a constant level *)
Lemma define_spec s id name l cond s1 b : define s id name (LConst l) cond = Some (s1, b) ->
  exists n, mg s1 = fst (define_location (mg s) id n l true) /\ mhit s1 = mhit s /\ mlast s1 = mlast s /\ mout s1 = mout s /\
    (linit (gtable (mg s) id) = true \/ exists e', eval_in [(V_loc, Indeterminate)] name (menv s) = Some (e', n)) /\
    (b = true -> lenabled (gtable (mg s1) id) = true).
Proof.
  unfold define. intros D.
  destruct (linit (gtable (mg s) id)) eqn:LI.
  - exists (lname (gtable (mg s) id)). cbn [level_differs level_value] in D. unfold define_location. rewrite LI. cbn [fst].
    destruct (Nat.eqb (llevel (gtable (mg s) id)) l) eqn:E; cbn [negb] in D;
    (destruct (lenabled _) eqn:LE in D; [destruct cond as [c|]; [destruct (eval_in _ c _) as [[e2 b2]|]; [|discriminate]|]|]; injection D as <- <-; cbn; repeat split; auto; discriminate).
  - destruct (eval_in _ name (menv s)) as [[e n]|] eqn:EV; [|discriminate]. exists n.
    cbn [level_differs level_value] in D. unfold define_location. rewrite LI. cbn [fst].
    destruct (Nat.eqb (llevel (gtable (initialize (mg s) id n l) id)) l) eqn:E; cbn [negb] in D;
    (destruct (lenabled _) eqn:LE in D; [destruct cond as [c|]; [destruct (eval_in _ c _) as [[e2 b2]|]; [|discriminate]|]|]; injection D as <- <-; cbn; repeat split; eauto; discriminate).
Qed.
Record inv (min : nat) (package : bytes) (src : source) (l : list action) (s : mstate) : Prop := {
  iH : exists h, mg s = run g0 h /\ level_after h = level_after (calls l) /\ (forall n, stream_on h n = stream_on (calls l) n) /\
         (forall id n, stream_of package (src id) n -> named h id n);
  iO : forall id, uvar (src id) = Once -> mhit s id = existsb (of_stmt id) (mout s);
  iT : forall id r, uvar (src id) = Throttle r -> mlast s id = match List.find (of_stmt id) (mout s) with Some x => eclock x | None => fzero end;
  iE : Forall (fun x => elev x = ulevel (src (eid x)) /\ min <= elev x) (mout s) }.
Lemma calls_app a b : calls (a ++ b) = calls a ++ calls b.
Proof. induction a as [|[o|i t] a IH]; cbn; auto. rewrite IH. auto. Qed.
Lemma name_value package u n e l : stream_of package u n -> eval_in l (prefixed package (uname u)) e = Some (outside l e (inside l e), n).
Proof. intros [[E ->]|(m & E & ->)]; rewrite E; reflexivity. Qed.
Lemma outside_inside l e x : outside l e (inside l e) x = e x.
Proof. unfold outside, inside. destruct (lookup l x); auto. Qed.
(** executing a statement: the locations, then possibly the message *)
Lemma exec_cases s id t now s' : exec_stmt s id t now = Some s' ->
  exists s1 b, define s id (sname t) (slevel t) (match svar t with WhenTrue c => Some c | _ => None end) = Some (s1, b) /\
  mg s' = mg s1 /\
  ((mout s' = mout s1 /\ mhit s' = mhit s1 /\ mlast s' = mlast s1) \/
   (exists m, mout s' = mkEn id now (lname (gtable (mg s1) id)) (llevel (gtable (mg s1) id)) m :: mout s1 /\
      mhit s' = match svar t with Once => set_nat (mhit s1) id true | _ => mhit s1 end /\
      mlast s' = match svar t with Throttle _ => set_nat (mlast s1) id now | _ => mlast s1 end)).
Proof.
  unfold exec_stmt. destruct (define s id _ _ _) as [[s1 b]|]; [|discriminate]. intros E. exists s1, b. split; auto. unfold print_at in E.
  destruct (svar t) as [|c| |r].
  - destruct b; [|injection E as <-; auto]. destruct (eval_in _ (sargs t) _) as [[e m]|]; [|discriminate]. injection E as <-. cbn. split; auto. right. exists m. auto.
  - destruct b; [|injection E as <-; auto]. destruct (eval_in _ (sargs t) _) as [[e m]|]; [|discriminate]. injection E as <-. cbn. split; auto. right. exists m. auto.
  - destruct (b && negb (mhit s1 id)); [|injection E as <-; auto]. destruct (eval_in _ (sargs t) _) as [[e m]|]; [|discriminate]. injection E as <-. cbn. split; auto. right. exists m. auto.
  - destruct (b && rate_passed _ _ _ _); [|injection E as <-; auto]. destruct (eval_in _ (sargs t) _) as [[e m]|]; [|discriminate]. injection E as <-. cbn. split; auto. right. exists m. auto.
Qed.
Lemma logged_since h g id : after_history h g -> linit (gtable g id) = true -> exists m l c, In (Log id m l c) h. Proof. intros A L. destruct (ahN _ _ A id L) as (m & l & c & I & _). eauto. Qed.
Lemma inv_step min package src l s a s' : api_only (l ++ [a]) -> inv min package src l s -> act min package src s a = Some s' -> inv min package src (l ++ [a]) s'.
Proof.
  intros AP I A. destruct a as [o|id now].
  - injection A as <-. destruct (iH _ _ _ _ _ I) as (h & G & HL & HS & HN).
    assert (AO : api o = true). { unfold api_only in AP. rewrite calls_app in AP. apply Forall_app in AP as [_ AP]. apply Forall_inv in AP. auto. }
    split; try apply I. exists (h ++ [o]). cbn [mg]. rewrite run_snoc, G, calls_app. cbn [calls]. split; auto. split; [|split].
    + rewrite !level_snoc, HL. auto.
    + intros n. rewrite !stream_snoc, HS. auto.
    + intros id n SO m lv c IN. apply in_app_or in IN as [IN|[IN|[]]]; [eapply HN; eauto|]. subst o. discriminate.
  - cbn [act] in A. unfold expand in A. destruct (ulevel (src id) <? min) eqn:MIN.
    { injection A as <-. split; try apply I. destruct (iH _ _ _ _ _ I) as (h & G & HL & HS & HN). exists h. rewrite calls_app. cbn [calls]. rewrite app_nil_r. auto. }
    apply Nat.ltb_ge in MIN. set (t := mkS _ _ _ _ _) in A.
    destruct (exec_cases _ _ _ _ _ A) as (s1 & b & D & G1 & R). cbn [t svar slevel sname] in D, R.
    destruct (define_spec _ _ _ _ _ _ _ D) as (n & DG & DH & DL & DO & DN & _). destruct (iH _ _ _ _ _ I) as (h & G & HL & HS & HN).
    split.
    + (* if the location was initialised before, any name does: take the one of an earlier execution *)
      assert (X : exists n1, mg s1 = fst (define_location (mg s) id n1 (ulevel (src id)) true) /\ forall x, stream_of package (src id) x -> n1 = x).
      { destruct DN as [LI|[e' EV]].
        - rewrite G in LI. destruct (logged_since h _ id (proj1 (history h)) LI) as (m & lv & c & IN). exists m. split.
          + rewrite DG. unfold define_location. rewrite G, LI. auto.
          + intros x SO. exact (HN id x SO m lv c IN).
        - exists n. split; auto. intros x SO. rewrite (name_value _ _ _ _ _ SO) in EV. injection EV as _ EV. auto. }
      destruct X as (n1 & X1 & X2). exists (h ++ [Log id n1 (ulevel (src id)) true]).
      split. { rewrite run_snoc, G1, X1, G. cbn [exec]. destruct (define_location _ _ _ _ _). auto. }
      rewrite calls_app. cbn [calls]. rewrite app_nil_r, level_snoc. split; auto. split; [intros x; rewrite stream_snoc; auto|].
      intros i x SO m lv c IN. apply in_app_or in IN as [IN|[IN|[]]]; [eapply HN; eauto|]. injection IN as <- <- <- <-. auto.
    + intros i V. destruct R as [(R1 & R2 & _)|(m & R1 & R2 & _)]; rewrite R1, R2, ?DO, ?DH.
      * apply I. auto.
      * cbn [existsb]. unfold of_stmt at 1. cbn [eid]. destruct (Nat.eqb id i) eqn:E.
        -- apply Nat.eqb_eq in E. subst i. rewrite V. unfold set_nat. rewrite Nat.eqb_refl. auto.
        -- cbn [orb]. rewrite <- (iO _ _ _ _ _ I i V). destruct (uvar (src id)); auto. unfold set_nat. rewrite Nat.eqb_sym, E. auto.
    + intros i r V. destruct R as [(R1 & _ & R3)|(m & R1 & _ & R3)]; rewrite R1, R3, ?DO, ?DL.
      * eapply iT; eauto.
      * cbn [List.find]. unfold of_stmt at 1. cbn [eid]. destruct (Nat.eqb id i) eqn:E.
        -- apply Nat.eqb_eq in E. subst i. rewrite V. unfold set_nat. rewrite Nat.eqb_refl. auto.
        -- rewrite <- (iT _ _ _ _ _ I i r V). destruct (uvar (src id)); auto. unfold set_nat. rewrite Nat.eqb_sym, E. auto.
    + destruct R as [(R1 & _ & _)|(m & R1 & _ & _)]; rewrite R1, DO; [apply I|]. constructor; [|apply I]. cbn [eid elev]. rewrite DG, define_level. auto.
Qed.
Lemma inv_0 min package src e : inv min package src [] (m0 e).
Proof. split; cbn; auto. exists []. cbn. repeat split; auto. intros id n _ m l c []. Qed.
Lemma acts_app min package src a : forall s b, acts min package src s (a ++ b) = match acts min package src s a with Some s' => acts min package src s' b | None => None end.
Proof. induction a as [|x a IH]; intros s b; cbn; auto. destruct (act _ _ _ s x); auto. Qed.
Lemma inv_acts min package src e l : forall s, api_only l -> acts min package src (m0 e) l = Some s -> inv min package src l s.
Proof.
  induction l as [|a l IH] using rev_ind; intros s AP H.
  - injection H as <-. apply inv_0.
  - rewrite acts_app in H. destruct (acts min package src (m0 e) l) as [s1|] eqn:E; [|discriminate]. cbn [acts] in H. destruct (act min package src s1 a) as [s2|] eqn:Q; [|discriminate]. injection H as <-.
    eapply inv_step; eauto. apply IH; auto. unfold api_only in *. rewrite calls_app in AP. apply Forall_app in AP. tauto.
Qed.
Lemma define_clean s id package u n cond : stream_of package u n ->
  exists e1, (forall x, e1 x = menv s x) /\
  let g2 := fst (define_location (mg s) id n (ulevel u) true) in
  define s id (prefixed package (uname u)) (LConst (ulevel u)) cond =
    (if lenabled (gtable g2 id) then
       match cond with
       | None => Some (mkM g2 (mhit s) (mlast s) e1 (mout s), true)
       | Some c => match eval_in [(V_loc, Indeterminate); (V_enabled, Indeterminate)] c e1 with
                   | Some (e2, b) => Some (mkM g2 (mhit s) (mlast s) e2 (mout s), b)
                   | None => None
                   end
       end
     else Some (mkM g2 (mhit s) (mlast s) e1 (mout s), false)).
Proof.
  intros SO. unfold define, define_location. cbn [fst]. destruct (linit (gtable (mg s) id)) eqn:LI.
  - exists (menv s). split; auto. cbn [level_differs level_value]. destruct (Nat.eqb _ _); reflexivity.
  - rewrite (name_value package u n _ _ SO). eexists. split; [apply outside_inside|]. cbn [level_differs level_value]. destruct (Nat.eqb _ _); reflexivity.
Qed.
Lemma wanted_ext h h' n l c : level_after h = level_after h' -> (forall x, stream_on h x = stream_on h' x) -> wanted h n l c = wanted h' n l c.
Proof. intros A B. unfold wanted. rewrite A. destruct n; auto. rewrite B. auto. Qed.
Lemma own_l0 b : own [(V_loc, Indeterminate); (V_enabled, of_bool b)].
Proof. intros y w [E|[E|[]]]; injection E as <- <-; cbn; auto. Qed.
Ltac own_tac := intros y w H; repeat (destruct H as [H|H]; [injection H as <- <-; cbn; tauto|]); destruct H.

(** Whatever the program did before, executing a statement whose expressions use none of the macros' own names does exactly what
    is meant: nothing at all if it is off; otherwise the condition is evaluated once, and, if the message is due, the arguments
    are evaluated once, afterwards, and the message goes to the statement's stream at the statement's level. *)
Theorem log_statement_partial min package src e0 l s id n now :
  api_only l -> acts min package src (m0 e0) l = Some s -> stream_of package (src id) n -> clean (src id) ->
  match meant (src id) (on min (src id) n l) (menv s) (mout s) id now, act min package src s (Exec id now) with
  | Some (e, m), Some s' => did s s' e (option_map (mkEn id now n (ulevel (src id))) m)
  | None, None => True
  | _, _ => False
  end.
Proof.
  intros AP AC SO [CA CV]. pose proof (inv_acts _ _ _ _ _ _ AP AC) as I. set (u := src id) in *.
  cbn [act]. fold u. unfold expand, on. destruct (ulevel u <? min) eqn:MIN.
  { apply Nat.ltb_lt in MIN. replace (min <=? ulevel u) with false by (symmetry; apply Nat.leb_gt; auto). cbn. split; auto. }
  apply Nat.ltb_ge in MIN. replace (min <=? ulevel u) with true by (symmetry; apply Nat.leb_le; auto). cbn [andb].
  destruct (iH _ _ _ _ _ I) as (h & G & HL & HS & HN). pose proof (HN id n SO) as NM.
  rewrite <- (wanted_ext h (calls l) n (ulevel u) true HL HS). pose proof (log_filter_up_to_date h id n (ulevel u) true NM) as F.
  unfold answer in F. rewrite <- G in F. cbn [exec] in F. destruct (define_location (mg s) id n (ulevel u) true) as [g2 b] eqn:DL. cbn [snd] in F. injection F as F.
  assert (LE : lenabled (gtable g2 id) = wanted h n (ulevel u) true).
  { rewrite <- F. unfold define_location in DL. injection DL as <- <-. rewrite andb_true_r. auto. }
  assert (LL : llevel (gtable g2 id) = ulevel u) by (pose proof (define_level (mg s) id n (ulevel u) true) as X; rewrite DL in X; exact X).
  assert (LN : lname (gtable g2 id) = n).
  { destruct (history (h ++ [Log id n (ulevel u) true])) as [A B]. rewrite run_snoc, <- G in A, B. cbn [exec] in A, B. rewrite DL in A, B. cbn [fst] in A, B.
    destruct (ahN _ _ A id) as (m & lv & c & IN & E). { eapply B. apply in_or_app. right. left. reflexivity. }
    rewrite E. apply in_app_or in IN as [IN|[IN|[]]]; [eapply NM; eauto|]. injection IN as <- _ _. auto. }
  unfold exec_stmt. cbn [svar sname slevel]. 
  destruct (define_clean s id package u n (match uvar u with WhenTrue c => Some c | _ => None end) SO) as (e1 & E1 & DC). cbn zeta in DC. rewrite DL in DC. cbn [fst] in DC. rewrite LE in DC.
  rewrite DC. clear DC. unfold meant. destruct (wanted h n (ulevel u) true) eqn:ON.
  2: { destruct (uvar u); cbn; split; auto. }
  (* printing from a state with pointwise the variables e *)
  assert (PR : forall (e e2 : env) hit lst ls, own ls -> (forall x, e2 x = e x) ->
     match match uargs u e with Some (e', m) => Some (e', Some m) | None => None end,
           print_at (mkM g2 hit lst e2 (mout s)) id (mkS (uvar u) (LConst (ulevel u)) (prefixed package (uname u)) (ustream u) (uargs u)) ls now with
     | Some (e, m), Some s' => did s s' e (option_map (mkEn id now n (ulevel u)) m)
     | None, None => True
     | _, _ => False
     end).
  { intros e e2 hit lst ls OW EX. unfold print_at. cbn [sstream sargs menv mg mhit mlast mout].
    assert (OW' : own (if ustream u then (V_ss, Indeterminate) :: ls else ls)).
    { destruct (ustream u); auto. intros y w [H|H]; [injection H as <- <-; cbn; tauto|eapply OW; eauto]. }
    pose proof (eval_in_spec _ (uargs u) e2 OW' CA) as EV. pose proof (ignores_ext (uargs u) e2 e CA EX) as EV'.
    destruct (uargs u e2) as [[f a]|], (eval_in _ (uargs u) e2) as [[f' a']|], (uargs u e) as [[f1 a1]|]; try contradiction; auto.
    destruct EV as [-> V1], EV' as [<- V2]. cbn [option_map]. split; cbn [menv mout]; [intros x; rewrite V1, V2; auto|]. rewrite LN, LL. auto. }
  destruct (uvar u) as [|c| |r] eqn:UV; cbn [option_map].
  - apply PR; auto. apply own_l0.
  - assert (OW : own [(V_loc, Indeterminate); (V_enabled, Indeterminate)]) by own_tac.
    pose proof (eval_in_spec _ c e1 OW CV) as EV. pose proof (ignores_ext c e1 (menv s) CV E1) as EV'.
    destruct (c e1) as [[f a]|], (eval_in _ c e1) as [[f' a']|], (c (menv s)) as [[f1 a1]|]; try contradiction; auto.
    destruct EV as [-> V1], EV' as [<- V2]. destruct a'.
    + apply PR; [apply own_l0|]. intros x. rewrite V1. auto.
    + split; cbn [menv mout]; auto. intros x. rewrite V1. auto.
  - cbn [mhit mg mlast menv mout]. rewrite (iO _ _ _ _ _ I id UV). cbn [andb]. destruct (existsb (of_stmt id) (mout s)) eqn:EX; cbn [negb].
    + split; auto.
    + apply PR; auto. own_tac.
  - destruct r as [f|]; [|contradiction]. cbn [mhit mg mlast menv mout rate_passed rate_value]. cbn [plain_rate] in CV.
    rewrite (iT _ _ _ _ _ I id _ UV). cbn [andb].
    set (last := match List.find _ _ with Some _ => _ | None => _ end).
    set (ls := (V_last, VD last) :: _). assert (OW : own ls) by own_tac.
    rewrite <- (CV e1 (inside ls e1) (inside_same ls e1 OW)). rewrite (CV e1 (menv s) (fun x _ => E1 x)).
    destruct (fleb (fadd last (f (menv s))) now) eqn:FL.
    + apply PR; auto. own_tac.
    + split; auto.
Qed.

(** ** Compiling levels out *)
(** A statement below the compile-time threshold does nothing, whatever its expressions are. *)
Theorem log_compiled_out min package src s id now : ulevel (src id) < min -> act min package src s (Exec id now) = Some s.
Proof. intros H. cbn [act]. unfold expand. apply Nat.ltb_lt in H. rewrite H. auto. Qed.
(** expressions without side effects, which cannot fail *)
Definition harmless {A} (x : expr A) : Prop := forall e, exists a, x e = Some (e, a).
Definition harmless_use (u : use) : Prop := harmless (uargs u) /\ match uvar u with WhenTrue c => harmless c | _ => True end.
(** A program compiled with a higher threshold prints exactly the messages, in order, that the full program prints at that
    severity or above, whatever levels and streams are switched while it runs. *)
Lemma meant_harmless u b e bf id now : harmless_use u -> exists m, meant u b e bf id now = Some (e, m).
Proof.
  intros [HA HC]. unfold meant. destruct b; [|eauto]. destruct (HA e) as [a Ea].
  destruct (uvar u) as [|c| |r]; rewrite ?Ea; eauto.
  - destruct (HC e) as [q Q]. rewrite Q. destruct q; rewrite ?Ea; eauto.
  - destruct (existsb _ bf); eauto.
  - destruct (fleb _ now); eauto.
Qed.
Lemma filter_existsb (p q : entry -> bool) l : (forall x, In x l -> p x = true -> q x = true) -> existsb p (filter q l) = existsb p l.
Proof.
  induction l as [|x l IH]; intros H; auto. cbn. destruct (q x) eqn:Q; cbn; rewrite IH by (intros; apply H; auto; right; auto); auto.
  destruct (p x) eqn:P; auto. rewrite (H x (or_introl eq_refl) P) in Q. discriminate.
Qed.
Lemma filter_find (p q : entry -> bool) l : (forall x, In x l -> p x = true -> q x = true) -> List.find p (filter q l) = List.find p l.
Proof.
  induction l as [|x l IH]; intros H; auto. cbn. destruct (q x) eqn:Q; cbn; rewrite IH by (intros; apply H; auto; right; auto); auto.
  destruct (p x) eqn:P; auto. rewrite (H x (or_introl eq_refl) P) in Q. discriminate.
Qed.
Lemma meant_ext u b e e' bf id now : clean u -> harmless_use u -> (forall x, e x = e' x) -> option_map snd (meant u b e bf id now) = option_map snd (meant u b e' bf id now).
Proof.
  intros [CA CV] HU E. unfold meant. destruct b; [|auto]. pose proof (ignores_ext (uargs u) e e' CA E) as A. destruct HU as [HA HC].
  destruct (HA e) as [a Ea], (HA e') as [a' Ea']. rewrite Ea, Ea' in A. destruct A as [-> _].
  destruct (uvar u) as [|c| |r]; rewrite ?Ea, ?Ea'; auto.
  - pose proof (ignores_ext c e e' CV E) as B. destruct (HC e) as [q Q], (HC e') as [q' Q']. rewrite Q, Q' in *. destruct B as [<- _]. destruct q; rewrite ?Ea, ?Ea'; auto.
  - destruct (existsb _ bf); auto.
  - destruct r as [f|]; [|contradiction]. cbn [rate_value]. rewrite (CV e e' (fun x _ => E x)). destruct (fleb _ now); auto.
Qed.
Theorem log_compile_time_filter min package src e0 l :
  api_only l -> (forall id, clean (src id) /\ harmless_use (src id) /\ exists n, stream_of package (src id) n) ->
  exists full cut, acts 0 package src (m0 e0) l = Some full /\ acts min package src (m0 e0) l = Some cut /\
    mout cut = filter (fun x => min <=? elev x) (mout full) /\ (forall x, menv cut x = e0 x) /\ (forall x, menv full x = e0 x).
Proof.
  intros AP H. induction l as [|a l IH] using rev_ind.
  { exists (m0 e0), (m0 e0). cbn. auto. }
  assert (AP' : api_only l). { unfold api_only in *. rewrite calls_app in AP. apply Forall_app in AP. tauto. }
  destruct (IH AP') as (full & cut & F & C & O & V1 & V2). rewrite !acts_app, F, C. cbn [acts]. destruct a as [o|id now].
  { eexists _, _. split; [reflexivity|]. split; [reflexivity|]. cbn. auto. }
  destruct (H id) as (CL & HU & n & SO).
  pose proof (log_statement_partial 0 package src e0 l full id n now AP' F SO CL) as P0. pose proof (log_statement_partial min package src e0 l cut id n now AP' C SO CL) as P1.
  destruct (meant_harmless (src id) (on 0 (src id) n l) (menv full) (mout full) id now HU) as [m0 M0]. destruct (meant_harmless (src id) (on min (src id) n l) (menv cut) (mout cut) id now HU) as [m1 M1].
  rewrite M0 in P0. rewrite M1 in P1. destruct (act 0 package src full (Exec id now)) as [s0|]; [|contradiction]. destruct (act min package src cut (Exec id now)) as [s1|]; [|contradiction].
  destruct P0 as [A0 B0], P1 as [A1 B1]. exists s0, s1. split; auto. split; auto. split; [|split; intros x; [rewrite A1|rewrite A0]; auto].
  rewrite B0, B1. pose proof (iE _ _ _ _ _ (inv_acts _ _ _ _ _ _ AP' F)) as LE. rewrite Forall_forall in LE.
  destruct (min <=? ulevel (src id)) eqn:MIN.
  - assert (BF : forall e, meant (src id) (on 0 (src id) n l) e (mout cut) id now = meant (src id) (on 0 (src id) n l) e (mout full) id now).
    { intros e. assert (Q : forall x, In x (mout full) -> of_stmt id x = true -> (min <=? elev x) = true).
      { intros x IN OF. destruct (LE x IN) as [E _]. unfold of_stmt in OF. apply Nat.eqb_eq in OF. rewrite E, OF. auto. }
      unfold meant. rewrite O. destruct (uvar (src id)); auto; [rewrite filter_existsb|rewrite filter_find]; auto. }
    assert (ON : on min (src id) n l = on 0 (src id) n l) by (unfold on; rewrite MIN; auto).
    rewrite ON in M1. rewrite BF in M1. pose proof (meant_ext (src id) (on 0 (src id) n l) (menv cut) (menv full) (mout full) id now CL HU (fun x => eq_trans (V1 x) (eq_sym (V2 x)))) as X.
    rewrite M0, M1 in X. cbn in X. injection X as ->. destruct m0 as [m|]; cbn [option_map]; [|auto]. cbn [filter elev]. rewrite MIN. f_equal. auto.
  - assert (ON : on min (src id) n l = false) by (unfold on; rewrite MIN; auto). rewrite ON in M1. unfold meant in M1. assert (X : m1 = None) by (cbn in M1; congruence); subst m1. cbn [option_map].
    destruct m0 as [m|]; cbn [option_map]; [|auto]. cbn [filter elev]. rewrite MIN. auto.
Qed.

(** ** Where the macros go wrong *)
Definition read (x : bytes) : expr val := fun e => match e x with Indeterminate => None | v => Some (e, v) end.
Definition shows_val (v : val) : bytes := match v with VI z => if Z.eqb z 0 then str "0" else if Z.eqb z 1 then str "1" else str "other" | VD _ => str "double" | Indeterminate => [] end.
Definition print_var (x : bytes) : expr bytes := fun e => match read x e with Some (e', v) => Some (e', shows_val v) | None => None end.
Definition cond_var (x : bytes) : expr bool := fun e => match read x e with Some (e', VI z) => Some (e', negb (Z.eqb z 0)) | Some (e', _) => Some (e', true) | None => None end.
(** SM_INFO_COND(enabled, ...) reads the macro's own variable before it is initialised; SM_INFO("%d", enabled) prints the
    macro's variable (1) instead of the user's; so does SM_INFO_ONCE with the name of its flag. *)
Theorem log_own_names_refuted :
  (exists u e0, stream_of (str "sm") u (str "sm") /\ (exists r, meant u true e0 [] 0 fzero = Some r) /\ act 0 (str "sm") (fun _ => u) (m0 e0) (Exec 0 fzero) = None) /\
  (exists u e0 s', stream_of (str "sm") u (str "sm") /\ meant u true e0 [] 0 fzero = Some (e0, Some (str "0")) /\
     act 0 (str "sm") (fun _ => u) (m0 e0) (Exec 0 fzero) = Some s' /\ map etext (mout s') = [str "1"]) /\
  (exists u e0 s', uvar u = Once /\ stream_of (str "sm") u (str "sm") /\ meant u true e0 [] 0 fzero = Some (e0, Some (str "0")) /\
     act 0 (str "sm") (fun _ => u) (m0 e0) (Exec 0 fzero) = Some s' /\ map etext (mout s') = [str "1"]).
Proof.
  split; [|split].
  - exists (mkU 7 (WhenTrue (cond_var (str "enabled"))) None false (pure (str "text"))), (fun _ => VI 0). split; [left; auto|]. split; [eexists; vm_compute; reflexivity|]. vm_compute. reflexivity.
  - exists (mkU 7 Plain None false (print_var (str "enabled"))), (fun _ => VI 0). eexists. split; [left; auto|]. split; [vm_compute; reflexivity|]. split; [vm_compute; reflexivity|]. vm_compute. reflexivity.
  - exists (mkU 7 Once None false (print_var V_hit)), (fun _ => VI 0). eexists. split; [reflexivity|]. split; [left; auto|]. split; [vm_compute; reflexivity|]. split; [vm_compute; reflexivity|]. vm_compute. reflexivity.
Qed.
(** SM_INFO_THROTTLE(slow ? a : b, ...) with a at least 1 prints every time, however short the intervals. *)
Theorem log_ternary_rate_refuted package src e0 l s id n now c a b :
  api_only l -> acts 0 package src (m0 e0) l = Some s -> stream_of package (src id) n -> ignores_locals (uargs (src id)) -> harmless (uargs (src id)) ->
  uvar (src id) = Throttle (RTern c a b) -> (forall e, c e = true) -> fleb (fofZ 1) a = true ->
  feqb (fadd (mlast s id) (fofZ 1)) fzero = false -> on 0 (src id) n l = true ->
  exists s' m, act 0 package src s (Exec id now) = Some s' /\ mout s' = mkEn id now n (ulevel (src id)) m :: mout s.
Proof.
  intros AP AC SO CA HA UV CT A1 NZ ON.
  pose proof (inv_acts _ _ _ _ _ _ AP AC) as I. set (u := src id) in *.
  destruct (iH _ _ _ _ _ I) as (h & G & HL & HS & HN). pose proof (HN id n SO) as NM.
  unfold on in ON. cbn [Nat.leb andb] in ON.
  rewrite <- (wanted_ext h (calls l) n (ulevel u) true HL HS) in ON. pose proof (log_filter_up_to_date h id n (ulevel u) true NM) as F.
  unfold answer in F. rewrite <- G in F. cbn [exec] in F. destruct (define_location (mg s) id n (ulevel u) true) as [g2 q] eqn:DL. cbn [snd] in F. injection F as F.
  assert (LE : lenabled (gtable g2 id) = true).
  { rewrite <- ON, <- F. unfold define_location in DL. injection DL as <- <-. rewrite andb_true_r. auto. }
  assert (LL : llevel (gtable g2 id) = ulevel u) by (pose proof (define_level (mg s) id n (ulevel u) true) as X; rewrite DL in X; exact X).
  assert (LN : lname (gtable g2 id) = n).
  { destruct (history (h ++ [Log id n (ulevel u) true])) as [A B]. rewrite run_snoc, <- G in A, B. cbn [exec] in A, B. rewrite DL in A, B. cbn [fst] in A, B.
    destruct (ahN _ _ A id) as (m & lv & cc & IN & E). { eapply B. apply in_or_app. right. left. reflexivity. }
    rewrite E. apply in_app_or in IN as [IN|[IN|[]]]; [eapply NM; eauto|]. injection IN as <- _ _. auto. }
  cbn [act]. fold u. unfold expand. cbn [Nat.ltb Nat.leb]. unfold exec_stmt. cbn [svar sname slevel]. rewrite UV.
  destruct (define_clean s id package u n None SO) as (e1 & E1 & DC). cbn zeta in DC. rewrite DL in DC. cbn [fst] in DC. rewrite LE in DC.
  unfold u in *. cbn [svar sname slevel sstream sargs]. rewrite DC. cbn [mlast menv mg mhit mout rate_passed]. rewrite CT, NZ. cbn [negb].
  assert (TL : to_long_nonzero a = true).
  { unfold to_long_nonzero. unfold fleb, fofZ in *. clear - A1. destruct a as [sg|sg| |sg m e B]; try discriminate; auto. destruct sg; [exfalso; clear - A1; vm_compute in A1; destruct e; discriminate|exact A1]. }
  rewrite TL. cbn [andb]. unfold print_at. cbn [sstream sargs menv mg mhit mlast mout].
  set (ls := if ustream (src id) then _ else _). destruct (HA (inside ls e1)) as [m M]. unfold eval_in. rewrite M. eexists _, m. split; [reflexivity|]. cbn [mout]. rewrite LN, LL. auto.
Qed.
(** SM_LOG(important ? Info : All, ...): once initialised at one level the statement keeps it, and is printed although its level
    is below the threshold. *)
Theorem log_ternary_level_refuted : exists (t : stmt) (s1 s2 : mstate) (e : env),
  slevel t = LTern (fun e => match e (str "quiet") with VI 1 => true | _ => false end) 0 7 /\
  exec_stmt (m0 (fun _ => VI 0)) 0 t fzero = Some s1 /\ level_value (slevel t) e = 0 /\ glevel (mg s1) = 7 /\
  exec_stmt (mkM (mg s1) (mhit s1) (mlast s1) e (mout s1)) 0 t fzero = Some s2 /\ map elev (mout s2) = [7; 7].
Proof.
  exists (mkS Plain (LTern (fun e => match e (str "quiet") with VI 1 => true | _ => false end) 0 7) (pure (str "sm")) false (pure (str "x"))).
  eexists _, _, (fun _ => VI 1). split; [reflexivity|]. split; [vm_compute; reflexivity|]. split; [reflexivity|]. split; [reflexivity|]. split; vm_compute; reflexivity.
Qed.
(** If neither branch is All, a conditional level is used as written: the statement carries the level of this execution, and is
    on exactly by the current settings. *)
Theorem log_ternary_level_partial s id t s1 b c a d : a <> 0 -> d <> 0 -> slevel t = LTern c a d ->
  define s id (sname t) (slevel t) None = Some (s1, b) ->
  exists e, (linit (gtable (mg s) id) = true -> e = menv s) /\ llevel (gtable (mg s1) id) = level_value (slevel t) e /\
    b = enabled_value (mg s1) (gtable (mg s1) id) /\ menv s1 = e.
Proof.
  intros A D ->. unfold define. set (st := if linit _ then _ else _).
  assert (X : forall g e, st = Some (g, e) -> (linit (gtable (mg s) id) = true -> e = menv s)).
  { intros g e E L. unfold st in E. rewrite L in E. injection E as _ <-. auto. }
  destruct st as [[g1 e1]|]; [|discriminate]. intros H. exists e1. split; [eapply X; eauto|].
  assert (DF : level_differs (llevel (gtable g1 id)) (LTern c a d) e1 = true).
  { cbn. apply negb_true_iff, Nat.eqb_neq. destruct (negb _); auto. }
  rewrite DF in H. set (g2 := check _ id) in H.
  assert (R : mg s1 = g2 /\ b = lenabled (gtable g2 id) /\ menv s1 = e1) by (destruct (lenabled (gtable g2 id)); injection H as <- <-; auto).
  destruct R as (-> & -> & ->). unfold g2, check, set_loc. cbn [gtable]. rewrite !upd_same. cbn [with_flag with_level llevel lenabled]. auto.
Qed.

(** In general: an initialised statement with the level c ? a : b takes this execution's level exactly when the branch picked by comparing its present level with the
    truth value of c (1 or 0) is not All (0); otherwise it keeps its level. *)
Theorem log_ternary_level_kept s id t s1 on c a b : linit (gtable (mg s) id) = true -> slevel t = LTern c a b -> define s id (sname t) (slevel t) None = Some (s1, on) ->
  let cur := llevel (gtable (mg s) id) in let picked := if cur =? (if c (menv s) then 1 else 0) then b else a in
  llevel (gtable (mg s1) id) = if picked =? 0 then cur else if c (menv s) then a else b.
Proof.
  intros L ->. unfold define. rewrite L. cbv zeta. set (cur := llevel (gtable (mg s) id)).
  assert (GO : forall p, level_differs cur (LTern c a b) (menv s) = negb (p =? 0) ->
    match Some (mg s, menv s) with None => None | Some (g1, e1) => let g2 := if level_differs (llevel (gtable g1 id)) (LTern c a b) e1 then check (set_loc g1 id (with_level (gtable g1 id) (level_value (LTern c a b) e1))) id else g1 in
      if lenabled (gtable g2 id) then Some (mkM g2 (mhit s) (mlast s) e1 (mout s), true) else Some (mkM g2 (mhit s) (mlast s) e1 (mout s), false) end = Some (s1, on) ->
    llevel (gtable (mg s1) id) = if p =? 0 then cur else if c (menv s) then a else b).
  { intros p DF. cbv zeta iota beta. fold cur. rewrite DF. destruct (p =? 0); cbn [negb]; intros H.
    - assert (R : mg s1 = mg s) by (destruct (lenabled (gtable (mg s) id)); injection H as H1 H2; rewrite <- H1; reflexivity). rewrite R. reflexivity.
    - set (g2 := check _ id) in H. assert (R : mg s1 = g2) by (destruct (lenabled (gtable g2 id)); injection H as H1 H2; rewrite <- H1; reflexivity). rewrite R. unfold g2, check, set_loc. cbn [gtable]. rewrite !upd_same. cbn [with_flag with_level llevel level_value]. reflexivity. }
  apply GO. cbn [level_differs]. destruct (cur =? (if c (menv s) then 1 else 0)); reflexivity.
Qed.

(** Non-vacuity *)
Definition demo (i : nat) : use :=
  match i with
  | 0 => mkU 7 Plain None true (print_var (str "x"))
  | 1 => mkU 8 Once (Some (pure (str "vision"))) false (print_var (str "x"))
  | 2 => mkU 3 (Throttle (RVal (fun _ => fofZ 2))) None false (pure (str "tick"))
  | _ => mkU 9 (WhenTrue (cond_var (str "x"))) None false (pure (str "bad"))
  end.
Lemma print_ignores x : ~ In x reserved -> ignores_locals (print_var x).
Proof.
  intros N e e' S1. unfold print_var, read. rewrite <- (S1 x N). destruct (e x); auto.
Qed.
Lemma cond_ignores x : ~ In x reserved -> ignores_locals (cond_var x).
Proof. intros N e e' S1. unfold cond_var, read. rewrite <- (S1 x N). destruct (e x); auto. Qed.
Lemma pure_ignores {A} (a : A) : ignores_locals (pure a). Proof. intros e e' S1. cbn. auto. Qed.
Example demo_clean : forall i, clean (demo i).
Proof.
  assert (NX : ~ In (str "x") reserved) by (intros H; repeat destruct H as [H|H]; try discriminate; auto).
  intros [|[|[|i]]]; split; cbn; auto using print_ignores, cond_ignores, pure_ignores.
Qed.
Example demo_run : option_map (fun s => rev (map (fun x => (ename x, elev x, etext x)) (mout s)))
  (acts 0 (str "sm") demo (m0 (fun _ => VI 1)) [Exec 0 fzero; Exec 1 fzero; Call (Enable (str "vision")); Exec 1 fzero; Exec 1 fzero;
     Exec 2 (fofZ 5); Call (SetLevel 2); Exec 2 (fofZ 5); Exec 2 (fofZ 6); Exec 2 (fofZ 7); Exec 3 fzero]) =
  Some [(str "sm", 7, str "1"); (str "sm.vision", 8, str "1"); (str "sm", 3, str "tick"); (str "sm", 3, str "tick"); (str "sm", 9, str "bad")].
Proof. vm_compute. reflexivity. Qed.
Example demo_cut : option_map (fun s => rev (map (fun x => (ename x, elev x, etext x)) (mout s)))
  (acts 8 (str "sm") demo (m0 (fun _ => VI 1)) [Exec 0 fzero; Call (Enable (str "vision")); Exec 1 fzero; Call (SetLevel 2); Exec 2 (fofZ 5); Exec 3 fzero]) =
  Some [(str "sm.vision", 8, str "1"); (str "sm", 9, str "bad")].
Proof. vm_compute. reflexivity. Qed.
(** a throttled statement with a conditional rate prints at 5, 6 and 7 seconds although ten seconds were asked for *)
Example demo_ternary : option_map (fun s => length (mout s))
  (acts 0 (str "sm") (fun _ => mkU 7 (Throttle (RTern (fun _ => true) (fofZ 10) (fofZ 1))) None false (pure (str "t"))) (m0 (fun _ => VI 1)) [Exec 0 (fofZ 5); Exec 0 (fofZ 6); Exec 0 (fofZ 7)]) = Some 3.
Proof. vm_compute. reflexivity. Qed.
