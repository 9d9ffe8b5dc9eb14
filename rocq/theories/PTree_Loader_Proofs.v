(** The loader: order, once, termination, result. *)
From Verif Require Export PTree_Loader_Spec.
From Verif Require Import PTree_Loader_Model PTree_Proofs Strings_Model.
Open Scope nat_scope.

Lemma opened_app a b : opened (a ++ b) = opened a ++ opened b. Proof. apply flat_map_app. Qed.
Lemma applied_app a b : applied (a ++ b) = applied a ++ applied b. Proof. apply flat_map_app. Qed.

(** Nested loading: [prog] are the files being loaded (innermost first, with their parents lists), [seen] all names met so far. *)
Inductive load_order : list (bytes * list bytes) -> list bytes -> list event -> Prop :=
| lo_nil prog seen : load_order prog seen []
| lo_file prog seen n ps inner t u rest :
    n <> [] -> ~ In n seen ->
    match prog with [] => True | (_, qs) :: _ => In n qs end ->
    load_order ((n, ps) :: prog) (n :: seen) inner ->
    (forall p, In p ps -> p <> [] -> In p (opened inner ++ n :: seen)) ->
    load_order prog (opened inner ++ n :: seen) rest ->
    load_order prog seen (Opened n ps :: inner ++ Applied n t u :: rest).

Section Proofs.
  Variables (fs : bytes -> option ptree) (resolve : bytes -> bytes -> bytes) (oob : byte).
  Notation readFiles := (readFiles fs resolve oob).
  Notation loadCfg := (loadConfigFileWithParents fs resolve oob).
  Definition go (f : nat) (rel : bytes) := fix go (l : list bytes) (s : session) : lres :=
           match l with
           | [] => LOk s
           | n :: r =>
               if (match n with [] => true | _ => false end) || mem n (ignore s) then go r s
               else match loadCfg (readFiles f) n rel (mkS (n :: ignore s) (conf s) (trace s)) with
                    | LOk s' => go r s'
                    | e => e
                    end
           end.
  Lemma readFiles_S f l rel s : readFiles (S f) l rel s = go f rel l s.
  Proof. reflexivity. Qed.
  Lemma mem_spec n l : mem n l = true <-> In n l.
  Proof.
    unfold mem. rewrite existsb_exists. split.
    - intros (x & I & E). apply bytes_eqb_eq in E. subst. auto.
    - intros I. exists n. split; auto. apply bytes_eqb_refl.
  Qed.

  (** *** merging in trace order *)
  Lemma merged_app l1 : forall c l2 c1, merged c l1 = Some c1 -> merged c (l1 ++ l2) = merged (Some c1) l2.
  Proof.
    induction l1 as [|[n ps|n t u] l1 IH]; intros c l2 c1 E; cbn [merged app] in *; [congruence|eauto|].
    destruct (updateOrSet c t u); [eauto|discriminate].
  Qed.
  Lemma merged_app_none l1 : forall l2, merged None l1 = None -> merged None l2 = merged None (l1 ++ l2) \/ applied l1 <> [].
  Proof.
    induction l1 as [|[n ps|n t u] l1 IH]; intros l2 E; cbn [merged app applied flat_map] in *; auto.
    right. discriminate.
  Qed.

  (** *** what one call does *)
  Record step_ok (prog : list (bytes * list bytes)) (s s' : session) (ext : list event) : Prop := {
    so_trace : trace s' = trace s ++ ext;
    so_ign : forall n, In n (ignore s') <-> In n (ignore s) \/ In n (opened ext);
    so_order : forall seen, (forall n, In n seen <-> In n (ignore s)) -> load_order prog seen ext;
    so_conf : forall c, conf s = c -> (ext = [] /\ conf s' = c) \/ (exists c', conf s' = Some c' /\ merged c ext = Some c')
  }.
  Lemma load_order_seen prog seen l : load_order prog seen l -> forall seen', (forall n, In n seen <-> In n seen') -> load_order prog seen' l.
  Proof.
    induction 1 as [|prog seen n ps inner t u rest N1 N2 HP L1 IH1 HPs L2 IH2]; intros seen' E; constructor; auto.
    - rewrite <- E. auto.
    - apply IH1. intros x. cbn [In]. rewrite E. tauto.
    - intros p Hp Np. specialize (HPs p Hp Np). rewrite in_app_iff in *. cbn [In] in *. rewrite <- E. tauto.
    - apply IH2. intros x. rewrite !in_app_iff. cbn [In]. rewrite E. tauto.
  Qed.
  Lemma load_order_app prog seen l1 l2 : load_order prog seen l1 -> load_order prog (opened l1 ++ seen) l2 -> load_order prog seen (l1 ++ l2).
  Proof.
    induction 1 as [|prog seen n ps inner t u rest N1 N2 HP L1 IH1 HPs L2 IH2]; intros H2; auto.
    cbn [app]. rewrite <- app_assoc. cbn [app]. constructor; auto. apply IH2.
    eapply load_order_seen; [exact H2|]. intros x. cbn [opened flat_map app].
    fold (opened (inner ++ Applied n t u :: rest)). rewrite opened_app. cbn [opened flat_map app]. fold (opened rest).
    cbn [In]. rewrite !in_app_iff. cbn [In]. tauto.
  Qed.

  Lemma step_refl prog s : step_ok prog s s [].
  Proof.
    constructor.
    - rewrite app_nil_r. auto.
    - cbn. tauto.
    - intros; constructor.
    - intros c Hc. left. auto.
  Qed.
  Lemma step_trans prog s1 s2 s3 e1 e2 : step_ok prog s1 s2 e1 -> step_ok prog s2 s3 e2 -> step_ok prog s1 s3 (e1 ++ e2).
  Proof.
    intros [T1 I1 O1 C1] [T2 I2 O2 C2]. constructor.
    - rewrite T2, T1, app_assoc. auto.
    - intros n. rewrite I2, I1, opened_app, in_app_iff. tauto.
    - intros seen E. apply load_order_app; auto. apply O2. intros n. rewrite I1, in_app_iff, E. tauto.
    - intros c Hc. destruct (C1 c Hc) as [[-> H1]|(c1 & H1 & M1)].
      + cbn [app]. apply C2. auto.
      + destruct (C2 _ H1) as [[-> H2]|(c2 & H2 & M2)].
        * right. exists c1. rewrite app_nil_r. split; congruence.
        * right. exists c2. split; auto. rewrite (merged_app _ _ _ _ M1). auto.
  Qed.
  Lemma merged_opened c n ps l : merged c (Opened n ps :: l) = merged c l. Proof. reflexivity. Qed.

  Lemma readFiles_ok f : forall l rel s s' prog,
    (match prog with [] => True | (_, qs) :: _ => forall n, In n l -> In n qs end) ->
    readFiles f l rel s = LOk s' ->
    exists ext, step_ok prog s s' ext /\ (forall n, In n l -> n <> [] -> In n (ignore s')).
  Proof.
    induction f as [|f IHf]; [discriminate|]. intros l rel. 
    induction l as [|n l IHl]; intros s s' prog HP E; rewrite readFiles_S in E; cbn [go] in E.
    - injection E as <-. exists []. split; [apply step_refl|intros n []].
    - assert (HP' : match prog with [] => True | (_, qs) :: _ => forall n, In n l -> In n qs end).
      { destruct prog as [|[x qs] prog]; auto. intros m Hm. apply HP. right; auto. }
      destruct ((match n with [] => true | _ => false end) || mem n (ignore s)) eqn:B.
      + destruct (IHl s s' prog HP' E) as (ext & SO & A). exists ext. split; auto.
        intros m [<-|Hm] Nm; auto. apply orb_true_iff in B as [B|B]; [destruct n; congruence|].
        apply (so_ign _ _ _ _ SO). left. apply mem_spec. auto.
      + destruct (loadCfg (readFiles f) n rel (mkS (n :: ignore s) (conf s) (trace s))) as [s1| | |] eqn:L; try discriminate.
        apply orb_false_iff in B as [B1 B2].
        assert (Nn : n <> []) by (destruct n; congruence).
        assert (Ni : ~ In n (ignore s)) by (intros X; apply mem_spec in X; congruence).
        assert (exists ext, step_ok prog s s1 ext /\ In n (ignore s1)) as (e1 & SO1 & In1).
        { unfold loadConfigFileWithParents in L. cbn [ignore conf trace] in L.
          destruct (fs _) as [pt|]; [|discriminate]. destruct (parents_of oob pt) as [[pt' ps]|]; [|discriminate].
          set (names := match ps with [] => [] | _ => split_commas ps end) in *.
          set (s0 := mkS (n :: ignore s) (conf s) (trace s ++ [Opened n names])) in *.
          match type of L with match ?X with _ => _ end = _ => destruct X as [s2| | |] eqn:R; try discriminate end.
          destruct (updateOrSet (conf s2) pt' (ends_with BANG n)) as [c|] eqn:U; [|discriminate]. injection L as <-.
          assert (exists ext, step_ok ((n, names) :: prog) s0 s2 ext /\ (forall p, In p names -> p <> [] -> In p (ignore s2))) as (ext & SO & A).
          { destruct names as [|x nms] eqn:EN; [injection R as <-; exists []; split; [apply step_refl|intros p []]|].
            eapply IHf; [|exact R]. cbn. auto. }
          exists (Opened n names :: ext ++ [Applied n pt' (ends_with BANG n)]). split.
          - constructor; cbn [ignore conf trace].
            + rewrite (so_trace _ _ _ _ SO). cbn [s0 trace]. rewrite <- !app_assoc. auto.
            + intros m. rewrite (so_ign _ _ _ _ SO). cbn [s0 ignore opened flat_map app]. fold (opened (ext ++ [Applied n pt' (ends_with BANG n)])).
              rewrite opened_app. cbn [opened flat_map]. rewrite app_nil_r. cbn [In]. fold (opened ext). tauto.
            + intros seen Es. apply lo_file; auto.
              * rewrite Es. auto.
              * destruct prog as [|[y qs] prog]; auto. apply HP. left; auto.
              * apply (so_order _ _ _ _ SO). intros m. cbn [s0 ignore In]. rewrite Es. tauto.
              * intros p Hp Np. specialize (A p Hp Np). apply (so_ign _ _ _ _ SO) in A. cbn [s0 ignore In] in A.
                rewrite in_app_iff. cbn [In]. rewrite Es. tauto.
              * constructor.
            + intros c0 Hc. right. exists c. split; auto. rewrite merged_opened.
              destruct (so_conf _ _ _ _ SO c0) as [[-> C2]|(c2 & C2 & M)]; [exact Hc| |].
              * cbn [app merged]. rewrite <- C2, U. auto.
              * rewrite (merged_app _ _ _ _ M). cbn [merged]. rewrite <- C2, U. auto.
          - cbn [ignore]. apply (so_ign _ _ _ _ SO). left. left. auto. }
        destruct (IHl s1 s' prog HP' E) as (e2 & SO2 & A). exists (e1 ++ e2). split; [eapply step_trans; eauto|].
        intros m [<-|Hm] Nm; auto. apply (so_ign _ _ _ _ SO2). auto.
  Qed.

  (** *** termination *)
  Variable U : list bytes.
  Hypothesis closed : forall full pt pt' ps n, fs full = Some pt -> parents_of oob pt = Some (pt', ps) -> In n (split_commas ps) -> n = [] \/ In n U.
  Definition left_over (ign : list bytes) : nat := length (filter (fun n => negb (mem n ign)) U).
  Lemma left_over_le a b : (forall n, In n a -> In n b) -> left_over b <= left_over a.
  Proof.
    intros H. unfold left_over. clear closed. induction U as [|x l IH]; auto. cbn [filter]. destruct (mem x b) eqn:B; cbn [negb].
    - destruct (mem x a); cbn [negb length]; lia.
    - replace (mem x a) with false; [cbn; lia|]. symmetry. destruct (mem x a) eqn:A; auto. apply mem_spec, H, mem_spec in A. congruence.
  Qed.
  Lemma left_over_lt a n : In n U -> ~ In n a -> left_over (n :: a) < left_over a.
  Proof.
    intros I N. unfold left_over. clear closed. revert I. induction U as [|x l IH]; [intros []|]. intros I. cbn [filter].
    assert (G : length (filter (fun m => negb (mem m (n :: a))) l) <= length (filter (fun m => negb (mem m a)) l)).
    { clear IH I. induction l as [|y l IHl]; auto. cbn [filter]. unfold mem at 1. cbn [existsb]. fold (mem y a).
      destruct (bytes_eqb y n), (mem y a); cbn [negb orb length]; lia. }
    destruct (bytes_eq_dec x n) as [->|D].
    - replace (mem n (n :: a)) with true by (symmetry; apply mem_spec; left; auto).
      replace (mem n a) with false by (symmetry; destruct (mem n a) eqn:X; auto; apply mem_spec in X; tauto). cbn [negb length]. lia.
    - destruct I as [X|I]; [congruence|]. specialize (IH I). unfold mem at 1. cbn [existsb]. fold (mem x a).
      rewrite (bytes_eqb_neq x n) by auto. cbn [orb]. destruct (mem x a); cbn [negb length]; lia.
  Qed.
  Lemma readFiles_ign f : forall l rel s s', readFiles f l rel s = LOk s' -> forall n, In n (ignore s) -> In n (ignore s').
  Proof.
    intros l rel s s' E n Hn. destruct (readFiles_ok f l rel s s' [] I E) as (ext & SO & _). apply (so_ign _ _ _ _ SO). auto.
  Qed.
  Lemma readFiles_terminates f : forall l rel s, (forall n, In n l -> n = [] \/ In n U) -> left_over (ignore s) < f -> readFiles f l rel s <> LFuel.
  Proof.
    induction f as [|f IHf]; [intros; lia|]. intros l rel.
    induction l as [|n l IHl]; intros s Hl LO; rewrite readFiles_S; cbn [go]; [discriminate|].
    destruct ((match n with [] => true | _ => false end) || mem n (ignore s)) eqn:B.
    - apply IHl; auto. intros m Hm. apply Hl. right; auto.
    - apply orb_false_iff in B as [B1 B2].
      assert (Un : In n U) by (destruct (Hl n (or_introl eq_refl)) as [->|X]; [discriminate|auto]).
      assert (Ni : ~ In n (ignore s)) by (intros X; apply mem_spec in X; congruence).
      pose proof (left_over_lt (ignore s) n Un Ni) as LT.
      destruct (loadCfg (readFiles f) n rel (mkS (n :: ignore s) (conf s) (trace s))) as [s1| | |] eqn:L; try discriminate.
      + apply IHl; [intros m Hm; apply Hl; right; auto|].
        assert (IG : forall m, In m (n :: ignore s) -> In m (ignore s1)).
        { unfold loadConfigFileWithParents in L. cbn [ignore conf trace] in L.
          destruct (fs _) as [pt|]; [|discriminate]. destruct (parents_of oob pt) as [[pt' ps]|]; [|discriminate].
          match type of L with match ?X with _ => _ end = _ => destruct X as [s2| | |] eqn:R; try discriminate end.
          destruct (updateOrSet _ _ _); [|discriminate]. injection L as <-. cbn [ignore].
          destruct (match ps with [] => [] | _ => split_commas ps end); [injection R as <-; cbn; auto|].
          intros m Hm. eapply readFiles_ign; [exact R|]. cbn. auto. }
        pose proof (left_over_le _ _ IG). lia.
      + exfalso. unfold loadConfigFileWithParents in L. cbn [ignore conf trace] in L.
        destruct (fs _) as [pt|] eqn:F; [|discriminate]. destruct (parents_of oob pt) as [[pt' ps]|] eqn:P; [|discriminate].
        match type of L with match ?X with _ => _ end = _ => destruct X as [s2| | |] eqn:R; try discriminate end.
        { destruct (updateOrSet _ _ _); discriminate. }
        destruct (match ps with [] => [] | _ => split_commas ps end) as [|x names] eqn:EN; [discriminate|].
        revert R. apply IHf.
        * intros m Hm. apply (closed _ _ _ ps m F P). destruct ps; [discriminate|]. rewrite EN. auto.
        * cbn [ignore]. lia.
  Qed.
End Proofs.

(** *** consequences of the load order *)
Lemma load_order_opened_applied prog seen l : load_order prog seen l -> forall n, In n (opened l) <-> In n (applied l).
Proof.
  induction 1 as [|prog seen n ps inner t u rest N1 N2 HP L1 IH1 HPs L2 IH2]; intros m; [cbn; tauto|].
  cbn [opened applied flat_map app]. fold (opened (inner ++ Applied n t u :: rest)). fold (applied (inner ++ Applied n t u :: rest)).
  rewrite opened_app, applied_app. cbn [opened applied flat_map app]. fold (opened rest) (applied rest).
  cbn [In]. rewrite !in_app_iff. cbn [In]. rewrite IH1, IH2. tauto.
Qed.
Lemma load_order_fresh prog seen l : load_order prog seen l -> (forall n, In n (opened l) -> ~ In n seen) /\ NoDup (opened l) /\ NoDup (applied l) /\ ~ In [] (opened l).
Proof.
  induction 1 as [|prog seen n ps inner t u rest N1 N2 HP L1 [F1 [D1 [E1 G1]]] HPs L2 [F2 [D2 [E2 G2]]]]; [repeat split; cbn; auto; constructor|].
  cbn [opened applied flat_map app]. fold (opened (inner ++ Applied n t u :: rest)). fold (applied (inner ++ Applied n t u :: rest)).
  rewrite opened_app, applied_app. cbn [opened applied flat_map app]. fold (opened rest) (applied rest).
  pose proof (load_order_opened_applied _ _ _ L1) as Q1. pose proof (load_order_opened_applied _ _ _ L2) as Q2.
  repeat split.
  - intros m [<-|Hm]; auto. apply in_app_or in Hm as [Hm|Hm].
    + intros X. apply (F1 m Hm). right; auto.
    + intros X. apply (F2 m Hm). apply in_or_app. right. right; auto.
  - constructor.
    + intros X. apply in_app_or in X as [X|X]; [apply (F1 n X); left; auto|apply (F2 n X); apply in_or_app; right; left; auto].
    + clear - D1 D2 F2. induction (opened inner) as [|x o IH]; auto. cbn [app]. inversion D1; subst. constructor.
      * intros X. apply in_app_or in X as [X|X]; auto. apply (F2 x X). left; auto.
      * apply IH; auto. intros m Hm X. apply (F2 m Hm). right; auto.
  - assert (NA : forall x, In x (applied inner) -> ~ In x (n :: applied rest)).
    { intros x Hx [X|X]; [subst x; apply Q1 in Hx; apply (F1 n Hx); left; auto|]. apply Q1 in Hx. apply Q2 in X. apply (F2 x X). apply in_or_app; auto. }
    assert (ND : NoDup (n :: applied rest)).
    { constructor; auto. intros X. apply Q2 in X. apply (F2 n X). apply in_or_app. right; left; auto. }
    clear - E1 ND NA. induction (applied inner) as [|x o IH]; auto. cbn [app]. inversion E1; subst. constructor.
    + intros X. apply in_app_or in X as [X|X]; auto. apply (NA x (or_introl eq_refl) X).
    + apply IH; auto. intros m Hm. apply NA. right; auto.
  - intros [X|X]; [congruence|]. apply in_app_or in X as [X|X]; auto.
Qed.
(** without cycles the parents of a file are applied before it *)
Lemma load_order_acyclic (rank : bytes -> nat) prog seen l : load_order prog seen l ->
  (forall n ps, In (Opened n ps) l -> forall p, In p ps -> rank p < rank n) ->
  (forall q qs, In (q, qs) prog -> forall p, In p qs -> rank p < rank q) ->
  (match prog with [] => True | (q, qs) :: r => forall q' qs', In (q', qs') r -> rank q < rank q' end) ->
  forall done, (forall n, In n seen -> In n done \/ In n (map fst prog)) ->
  forall a n t u b ps, l = a ++ Applied n t u :: b -> In (Opened n ps) l -> forall p, In p ps -> p <> [] -> In p done \/ In p (applied a).
Proof.
  induction 1 as [|prog seen n ps inner t u rest N1 N2 HP L1 IH1 HPs L2 IH2]; intros HR HQ HO done HD a m t' u' b ps' E HI p Hp Np.
  { destruct a; discriminate. }
  assert (ND : NoDup (opened (Opened n ps :: inner ++ Applied n t u :: rest))) by (eapply load_order_fresh; constructor; eauto).
  assert (Uniq : forall x q1 q2, In (Opened x q1) (Opened n ps :: inner ++ Applied n t u :: rest) -> In (Opened x q2) (Opened n ps :: inner ++ Applied n t u :: rest) -> q1 = q2).
  { clear - ND. generalize dependent (Opened n ps :: inner ++ Applied n t u :: rest). intros l ND x q1 q2. induction l as [|e l IH]; [intros []|].
    destruct e as [y qs|y t' u']; cbn [opened flat_map app] in ND; fold (opened l) in ND.
    - inversion ND as [|? ? D1 D2]; subst. assert (OI : forall q, In (Opened x q) l -> In x (opened l)).
      { intros q Hq. apply in_flat_map. exists (Opened x q). split; [auto|left; auto]. }
      intros [X|X] [Y|Y]; try congruence; auto.
      + injection X as <- <-. exfalso. eauto.
      + injection Y as <- <-. exfalso. eauto.
    - intros [X|X] [Y|Y]; try congruence; auto. }
  assert (Rn : forall q qs, In (q, qs) prog -> rank n < rank q).
  { intros q qs Hq. destruct prog as [|[q0 qs0] r]; [destruct Hq|]. pose proof (HQ q0 qs0 (or_introl eq_refl) n HP) as R0.
    destruct Hq as [Hq|Hq]; [injection Hq as <- <-; auto|]. specialize (HO q qs Hq). lia. }
  destruct a as [|e a]; [discriminate|]. cbn [app] in E. injection E as <- E.
  (* position of the application *)
  assert (Cases : (exists b', inner = a ++ Applied m t' u' :: b') \/ (a = inner /\ m = n /\ t' = t /\ u' = u /\ b = rest) \/
                  (exists a', a = inner ++ Applied n t u :: a' /\ rest = a' ++ Applied m t' u' :: b)).
  { clear - E. revert a E. induction inner as [|x inner IH]; intros a E.
    - destruct a as [|y a]; cbn [app] in E; [injection E as <- <- <- <-; right; left; auto|]. injection E as <- ->. right; right. exists a. auto.
    - destruct a as [|y a]; cbn [app] in E; [injection E as -> <-; left; exists inner; auto|]. injection E as <- E.
      destruct (IH a E) as [(b' & ->)|[(-> & X)|(a' & -> & X)]]; [left; exists b'; auto|right; left; auto|right; right; exists a'; auto]. }
  cbn [applied flat_map app]. fold (applied a).
  destruct Cases as [(b' & Ei)|[(-> & -> & -> & -> & ->)|(a' & -> & Er)]].
  - (* inside *)
    assert (HI' : In (Opened m ps') inner).
    { assert (In m (opened inner)).
      { apply (load_order_opened_applied _ _ _ L1). rewrite Ei, applied_app. apply in_or_app. right. left. auto. }
      apply in_flat_map in H as ([y qs|y ? ?] & Hin & X); [|destruct X]. destruct X as [<-|[]].
      rewrite (Uniq y ps' qs); auto. right. apply in_or_app; auto. }
    assert (X : In p done \/ In p (applied a)).
    { eapply (IH1) with (done := done); eauto.
      - intros y qs Hy. apply HR. right. apply in_or_app; auto.
      - intros q qs [X|X]; [injection X as <- <-; apply HR; left; auto|eauto].
      - intros y [<-|Hy]; cbn [map In]; auto. destruct (HD y Hy); auto. }
    exact X.
  - (* the file itself *)
    assert (ps' = ps) as -> by (eapply Uniq; [exact HI|left; auto]).
    specialize (HPs p Hp Np). assert (Rp : rank p < rank n) by (eapply HR; [left; auto|auto]).
    apply in_app_or in HPs as [X|[X|X]].
    + right. apply (load_order_opened_applied _ _ _ L1). auto.
    + subst. lia.
    + destruct (HD p X) as [Y|Y]; auto. apply in_map_iff in Y as ([q qs] & <- & Hq). apply Rn in Hq. cbn [fst] in *. lia.
  - (* afterwards *)
    assert (HI' : In (Opened m ps') rest).
    { assert (In m (opened rest)).
      { apply (load_order_opened_applied _ _ _ L2). rewrite Er, applied_app. apply in_or_app. right. left. auto. }
      apply in_flat_map in H as ([y qs|y ? ?] & Hin & X); [|destruct X]. destruct X as [<-|[]].
      rewrite (Uniq y ps' qs); auto. right. apply in_or_app. right. right. auto. }
    destruct (IH2 ltac:(intros y qs Hy; apply HR; right; apply in_or_app; right; right; auto) HQ HO (n :: opened inner ++ done)) with (a := a') (n := m) (t := t') (u := u') (b := b) (ps := ps') (p := p) as [X|X]; auto.
    + intros y Hy. apply in_app_or in Hy as [Hy|[Hy|Hy]].
      * left. right. apply in_or_app; auto.
      * left. left. auto.
      * destruct (HD y Hy); auto. left. right. apply in_or_app; auto.
    + destruct X as [<-|X].
      * right. rewrite applied_app. apply in_or_app. right. left. auto.
      * apply in_app_or in X as [X|X]; auto. right. rewrite applied_app. apply in_or_app. left.
        apply (load_order_opened_applied _ _ _ L1). auto.
    + right. rewrite applied_app. apply in_or_app. right. right. auto.
Qed.
(** in general, every parent has at least been opened before *)
Lemma load_order_opened_before prog seen l : load_order prog seen l ->
  forall a n t u b ps, l = a ++ Applied n t u :: b -> In (Opened n ps) l -> forall p, In p ps -> p <> [] -> In p seen \/ In p (opened a).
Proof.
  induction 1 as [|prog seen n ps inner t u rest N1 N2 HP L1 IH1 HPs L2 IH2]; intros a m t' u' b ps' E HI p Hp Np.
  { destruct a; discriminate. }
  assert (ND : NoDup (opened (Opened n ps :: inner ++ Applied n t u :: rest))) by (eapply load_order_fresh; constructor; eauto).
  assert (Uniq : forall x q1 q2, In (Opened x q1) (Opened n ps :: inner ++ Applied n t u :: rest) -> In (Opened x q2) (Opened n ps :: inner ++ Applied n t u :: rest) -> q1 = q2).
  { clear - ND. generalize dependent (Opened n ps :: inner ++ Applied n t u :: rest). intros l ND x q1 q2. induction l as [|e l IH]; [intros []|].
    destruct e as [y qs|y t' u']; cbn [opened flat_map app] in ND; fold (opened l) in ND.
    - inversion ND as [|? ? D1 D2]; subst. assert (OI : forall q, In (Opened x q) l -> In x (opened l)).
      { intros q Hq. apply in_flat_map. exists (Opened x q). split; [auto|left; auto]. }
      intros [X|X] [Y|Y]; try congruence; auto.
      + injection X as <- <-. exfalso. eauto.
      + injection Y as <- <-. exfalso. eauto.
    - intros [X|X] [Y|Y]; try congruence; auto. }
  destruct a as [|e a]; [discriminate|]. cbn [app] in E. injection E as <- E.
  assert (Cases : (exists b', inner = a ++ Applied m t' u' :: b') \/ (a = inner /\ m = n /\ t' = t /\ u' = u /\ b = rest) \/
                  (exists a', a = inner ++ Applied n t u :: a' /\ rest = a' ++ Applied m t' u' :: b)).
  { clear - E. revert a E. induction inner as [|x inner IH]; intros a E.
    - destruct a as [|y a]; cbn [app] in E; [injection E as <- <- <- <-; right; left; auto|]. injection E as <- ->. right; right. exists a. auto.
    - destruct a as [|y a]; cbn [app] in E; [injection E as -> <-; left; exists inner; auto|]. injection E as <- E.
      destruct (IH a E) as [(b' & ->)|[(-> & X)|(a' & -> & X)]]; [left; exists b'; auto|right; left; auto|right; right; exists a'; auto]. }
  cbn [opened flat_map app]. fold (opened a).
  destruct Cases as [(b' & Ei)|[(-> & -> & -> & -> & ->)|(a' & -> & Er)]].
  - assert (HI' : In (Opened m ps') inner).
    { assert (In m (opened inner)).
      { apply (load_order_opened_applied _ _ _ L1). rewrite Ei, applied_app. apply in_or_app. right. left. auto. }
      apply in_flat_map in H as ([y qs|y ? ?] & Hin & X); [|destruct X]. destruct X as [<-|[]].
      rewrite (Uniq y ps' qs); auto. right. apply in_or_app; auto. }
    destruct (IH1 _ _ _ _ _ _ Ei HI' p Hp Np) as [[X|X]|X]; [right; left; auto|left; auto|right; right; auto].
  - assert (ps' = ps) as -> by (eapply Uniq; [exact HI|left; auto]).
    specialize (HPs p Hp Np). apply in_app_or in HPs as [X|[X|X]]; [right; right; auto|right; left; auto|left; auto].
  - assert (HI' : In (Opened m ps') rest).
    { assert (In m (opened rest)).
      { apply (load_order_opened_applied _ _ _ L2). rewrite Er, applied_app. apply in_or_app. right. left. auto. }
      apply in_flat_map in H as ([y qs|y ? ?] & Hin & X); [|destruct X]. destruct X as [<-|[]].
      rewrite (Uniq y ps' qs); auto. right. apply in_or_app. right. right. auto. }
    destruct (IH2 _ _ _ _ _ _ Er HI' p Hp Np) as [X|X].
    + apply in_app_or in X as [X|[X|X]]; [right; right; rewrite opened_app; apply in_or_app; auto|right; left; auto|left; auto].
    + right. right. rewrite opened_app. apply in_or_app. right. exact X.
Qed.
