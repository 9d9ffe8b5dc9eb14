From Coq Require Import List QArith Lqa Sorted Lia Bool.
From Verif Require Import Corrector_Model Corrector_Spec.
Import ListNotations.
Open Scope Q_scope.

Notation QP := (Point QTime).
Notation qx := (@px QTime).
Notation qy := (@py QTime).
Definition qp (r l : Q) : QP := @mkP QTime r l.
Definition smp (p : QP) : sample := (qx p, qy p).

(** The determinant of isAboveLine. *)
Definition D (a b s : QP) : Q :=
  ((qx b - qx a) * (qy s - qy a) - (qy b - qy a) * (qx s - qx a))%Q.

Lemma isAboveLine_Q (a b s : QP) : isAboveLine a b s = Some (Qle_bool 0 (D a b s)).
Proof. reflexivity. Qed.

Lemma Qlt_bool_iff a b : Qlt_bool a b = true <-> a < b.
Proof.
  unfold Qlt_bool. rewrite negb_true_iff. split; intros H.
  - apply Qnot_le_lt. intros K. apply Qle_bool_iff in K. congruence.
  - destruct (Qle_bool b a) eqn:E; auto. apply Qle_bool_iff in E. lra.
Qed.
Lemma Qle_bool_false a b : Qle_bool a b = false <-> b < a.
Proof. rewrite <- Qlt_bool_iff. unfold Qlt_bool. now rewrite negb_true_iff. Qed.

Lemma mul_pos_le (k e : Q) : 0 < k -> 0 <= k * e -> 0 <= e.
Proof. intros. nra. Qed.

Lemma D_left (b a p s : QP) : qx b < qx a -> qx a < qx p -> qx s <= qx a ->
  0 <= D b a s -> 0 <= D b a p -> 0 <= D a p s.
Proof.
  intros H1 H2 H3 H4 H5. apply mul_pos_le with (qx a - qx b); [lra|].
  assert (E : (qx a - qx b) * D a p s == (qx p - qx a) * D b a s + (qx a - qx s) * D b a p)
    by (unfold D; ring).
  rewrite E. assert (0 <= qx p - qx a) by lra. assert (0 <= qx a - qx s) by lra.
  pose proof (Qmult_le_0_compat _ _ H H4). pose proof (Qmult_le_0_compat _ _ H0 H5). lra.
Qed.
Lemma D_right (a c p s : QP) : qx a < qx c -> qx a < qx p -> qx a <= qx s ->
  0 <= D a p c -> 0 <= D a c s -> 0 <= D a p s.
Proof.
  intros H1 H2 H3 H4 H5. apply mul_pos_le with (qx c - qx a); [lra|].
  assert (E : (qx c - qx a) * D a p s == (qx p - qx a) * D a c s + (qx s - qx a) * D a p c)
    by (unfold D; ring).
  rewrite E. assert (0 <= qx p - qx a) by lra. assert (0 <= qx s - qx a) by lra.
  pose proof (Qmult_le_0_compat _ _ H H5). pose proof (Qmult_le_0_compat _ _ H0 H4). lra.
Qed.
Lemma D_chain (u v w p : QP) : qx u < qx v -> qx v < qx w -> qx w < qx p ->
  0 <= D u v w -> 0 <= D v w p -> 0 <= D u v p.
Proof.
  intros H1 H2 H3 H4 H5. apply mul_pos_le with (qx w - qx v); [lra|].
  assert (E : (qx w - qx v) * D u v p == (qx v - qx u) * D v w p + (qx p - qx v) * D u v w)
    by (unfold D; ring).
  rewrite E. assert (0 <= qx v - qx u) by lra. assert (0 <= qx p - qx v) by lra.
  pose proof (Qmult_le_0_compat _ _ H H5). pose proof (Qmult_le_0_compat _ _ H0 H4). lra.
Qed.
Lemma D_swap (a b s : QP) : D a b s == - D a s b.
Proof. unfold D; ring. Qed.
Lemma D_self1 (a b : QP) : D a b a == 0. Proof. unfold D; ring. Qed.
Lemma D_self2 (a b : QP) : D a b b == 0. Proof. unfold D; ring. Qed.

(** Lists are back() first. *)
Fixpoint allabove (h : list QP) (s : QP) : Prop :=
  match h with
  | b :: ((a :: _) as r) => 0 <= D a b s /\ allabove r s
  | _ => True
  end.
Definition later (p q : QP) : Prop := qx q < qx p.

Record Inv (h S : list QP) : Prop := {
  i_incl : incl h S;
  i_hs : StronglySorted later h;
  i_Ss : StronglySorted later S;
  i_hd : hd_error h = hd_error S;
  i_last : forall d, last h d = last S d;
  i_above : forall s, In s S -> allabove h s }.

Lemma SS_app_r (A : Type) (R : A -> A -> Prop) l r : StronglySorted R (l ++ r) -> StronglySorted R r.
Proof. induction l; simpl; auto. intros H. apply IHl. inversion H; auto. Qed.
Lemma SS_app_lt (A : Type) (R : A -> A -> Prop) l r a b : StronglySorted R (l ++ r) -> In a l -> In b r -> R a b.
Proof.
  induction l; simpl; [easy|]. intros H [-> | Ha] Hb; inversion H; subst.
  - rewrite Forall_forall in H3. apply H3. apply in_app_iff; auto.
  - apply IHl; auto.
Qed.
Lemma allabove_app l r s : allabove (l ++ r) s -> allabove r s.
Proof.
  induction l as [|b l IH]; auto. intros H. apply IH. destruct l as [|a l]; simpl in *.
  - destruct r; simpl in *; tauto.
  - tauto.
Qed.
Lemma last_app_ne (A : Type) (l r : list A) d : r <> [] -> last (l ++ r) d = last r d.
Proof.
  intros H. induction l as [|a l IH]; auto. simpl. rewrite <- IH. destruct (l ++ r) eqn:E; auto.
  apply app_eq_nil in E. tauto.
Qed.

(** The pop loop. *)
Lemma popWhile_spec p h : exists pre h', popWhile p h = Some h' /\ h = pre ++ h' /\ (h <> [] -> h' <> []) /\
  match h' with a :: b :: _ => D b p a < 0 | _ => True end /\
  (pre <> [] -> exists pre' c a r, pre = pre' ++ [c] /\ h' = a :: r /\ 0 <= D a p c).
Proof.
  induction h as [|t r IH].
  - exists [], []. repeat split; auto; easy.
  - destruct r as [|s r].
    + exists [], [t]. repeat split; auto; easy.
    + cbn [popWhile]. rewrite isAboveLine_Q. cbn [obind].
      destruct (Qle_bool 0 (D s p t)) eqn:E.
      * destruct IH as (pre & h' & E1 & E2 & E3 & E4 & E5).
        exists (t :: pre), h'. repeat split; auto.
        -- simpl. now f_equal.
        -- intros _. apply E3. discriminate.
        -- intros _. destruct pre as [|q pre].
           ++ exists [], t. simpl in E2. destruct h' as [|a h']; [easy|]. injection E2 as <- <-.
              exists s, r. repeat split; auto. apply Qle_bool_iff; auto.
           ++ destruct E5 as (pre' & c & a & r' & F1 & F2 & F3); [discriminate|].
              exists (t :: pre'), c, a, r'. repeat split; auto. simpl. now f_equal.
      * exists [], (t :: s :: r). repeat split; auto; try easy.
        apply Qle_bool_false; auto.
Qed.

(** A point above the last edge is above all. *)
Lemma above_top_all p h : StronglySorted later h ->
  (forall s, In s h -> allabove h s) ->
  match h with a :: b :: _ => qx a < qx p /\ 0 <= D b a p | _ => True end -> allabove h p.
Proof.
  induction h as [|a h IH]; simpl; auto. intros Hs Ha Hp.
  destruct h as [|b h]; auto. destruct Hp as [Hx Hp]. split; auto.
  destruct (StronglySorted_inv Hs) as [Hs1 Hs2]. apply IH; auto.
  - intros s Hin. destruct (Ha s) as [_ K]; [right; auto|]. exact K.
  - destruct h as [|c h]; auto. destruct (StronglySorted_inv Hs1) as [Hs3 Hs4].
    assert (Hba : later a b) by (inversion Hs2; auto).
    assert (Hcb : later b c) by (inversion Hs4; auto).
    unfold later in *. split; [lra|].
    apply D_chain with a; auto.
    destruct (Ha a) as [_ [K _]]; [left; auto|]. exact K.
Qed.

Lemma inv_empty : Inv [] [].
Proof. split; auto using SSorted_nil; easy. Qed.

Lemma push_inv h S p : Inv h S -> match h with t :: _ => qx t < qx p | [] => True end ->
  exists h', pushPoint h p = Some (p :: h') /\ Inv (p :: h') (p :: S).
Proof.
  intros [Hi Hh HS Hd Hl Ha] Hp.
  assert (HpS : Forall (later p) S).
  { destruct S as [|t S']; [constructor|]. destruct h as [|t' h']; [discriminate|]. injection Hd as ->.
    inversion HS; subst. constructor; [exact Hp|].
    eapply Forall_impl; [|exact H2]. unfold later in *. simpl. intros; lra. }
  assert (Hph : Forall (later p) h).
  { rewrite Forall_forall in *. intros; apply HpS; auto. }
  (* it suffices to find a good suffix *)
  assert (Main : forall pre h', h = pre ++ h' -> (h <> [] -> h' <> []) ->
     match h' with a :: b :: _ => 0 <= D b a p | _ => True end ->
     (pre <> [] -> exists pre' c a r, pre = pre' ++ [c] /\ h' = a :: r /\ 0 <= D a p c) ->
     Inv (p :: h') (p :: S)).
  { intros pre h' -> Hne Hab Hpre.
    assert (Hh' : StronglySorted later h') by (eapply SS_app_r; eauto).
    assert (Hi' : incl h' S) by (intros q Hq; apply Hi, in_app_iff; auto).
    assert (Hph' : Forall (later p) h').
    { rewrite Forall_forall in *. intros; apply Hph, in_app_iff; auto. }
    assert (Hall : allabove h' p).
    { apply above_top_all; auto.
      - intros s Hin. eapply allabove_app. apply Ha. auto.
      - destruct h' as [|a [|b r]]; auto. split; auto. inversion Hph'; auto. }
    split.
    - intros q [-> | Hq]; [left; auto|right; auto].
    - constructor; auto.
    - constructor; auto.
    - reflexivity.
    - intros d. destruct h' as [|a r].
      + destruct pre as [|c pre].
        * simpl in Hd. destruct S; [reflexivity|discriminate].
        * exfalso. apply Hne; [discriminate|auto].
      + assert (E : last (pre ++ a :: r) d = last S d) by apply Hl.
        rewrite last_app_ne in E by discriminate.
        destruct S as [|t S']; [exfalso; apply (Hi' a); left; auto|].
        exact E.
    - intros s Hs. destruct h' as [|a r]; [exact I|].
      change (0 <= D a p s /\ allabove (a :: r) s). destruct Hs as [<- | Hs].
      + split; [rewrite D_self2; lra|exact Hall].
      + split.
        2:{ apply allabove_app with pre. apply Ha. auto. }
        assert (Hap : qx a < qx p) by (inversion Hph'; auto).
        destruct (Qlt_le_dec (qx a) (qx s)) as [Hlt|Hle].
        * (* s right of a: a popped neighbour c exists *)
          destruct pre as [|c0 pre0].
          -- (* a is the latest sample *)
             exfalso. simpl in Hd. destruct S as [|t S']; [discriminate|]. injection Hd as ->.
             inversion HS; subst. destruct Hs as [<-|Hs]; [lra|].
             rewrite Forall_forall in H2. specialize (H2 _ Hs). unfold later in H2. lra.
          -- destruct Hpre as (pre' & c & a' & r' & E1 & E2 & E3); [discriminate|]. injection E2 as <- <-.
             rewrite E1 in *.
             assert (Hca : qx a < qx c).
             { apply (SS_app_lt _ _ _ _ c a Hh); [apply in_app_iff; right; left; auto|left; auto]. }
             apply D_right with c; auto; try lra.
             specialize (Ha s Hs). rewrite <- app_assoc in Ha. apply allabove_app in Ha.
             simpl in Ha. tauto.
        * destruct r as [|b r].
          -- (* a is the first sample *)
             assert (s = a).
             { specialize (Hl a). rewrite last_app_ne in Hl by discriminate. simpl in Hl.
               clear - Hl HS Hs Hle. induction S as [|t S' IH]; [easy|].
               inversion HS; subst. destruct S' as [|t' S''].
               - simpl in Hl. destruct Hs as [Hs|[]]. congruence.
               - change (last (t :: t' :: S'') a) with (last (t' :: S'') a) in Hl.
                 destruct Hs as [->|Hs]; [|apply IH; auto].
                 exfalso. assert (In a (t' :: S'')).
                 { rewrite Hl. clear. revert t'. induction S'' as [|q l IH]; intros t'; [left; auto|].
                   right. exact (IH q). }
                 rewrite Forall_forall in H2. specialize (H2 _ H). unfold later in H2. lra. }
             subst. rewrite D_self1. lra.
          -- apply D_left with b; auto.
             ++ inversion Hh'; subst. inversion H2; auto.
             ++ specialize (Ha s Hs). apply allabove_app in Ha. simpl in Ha. tauto. }
  unfold pushPoint.
  destruct h as [|t [|s r]].
  - exists []. split; [reflexivity|]. apply (Main [] []); auto; easy.
  - exists [t]. split; [reflexivity|]. apply (Main [] [t]); auto; try easy.
  - cbn [isAboveTopLine]. rewrite isAboveLine_Q. cbn [obind].
    destruct (Qle_bool 0 (D s t p)) eqn:E.
    + exists (t :: s :: r). split; [reflexivity|]. apply (Main [] (t :: s :: r)); auto; try easy.
      apply Qle_bool_iff; auto.
    + destruct (popWhile_spec p (t :: s :: r)) as (pre & h' & E1 & E2 & E3 & E4 & E5).
      exists h'. rewrite E1. split; [reflexivity|]. apply (Main pre h'); auto.
      destruct h' as [|a [|b r']]; auto. rewrite D_swap. lra.
Qed.

(** * From the invariant to the specification *)
Lemma allabove_adj h s l r a b : allabove h s -> h = l ++ b :: a :: r -> 0 <= D a b s.
Proof. intros H ->. apply allabove_app in H. simpl in H. tauto. Qed.

Lemma D_line a b s : qx a < qx b -> 0 <= D a b s -> line (smp a) (smp b) (qx s) <= qy s.
Proof.
  intros Hx H. unfold line, smp, D in *. cbn [fst snd].
  assert (Hne : ~ qx b - qx a == 0) by lra.
  assert (E : (qx b - qx a) * (qy s - (qy a + (qy b - qy a) / (qx b - qx a) * (qx s - qx a))) ==
     (qx b - qx a) * (qy s - qy a) - (qy b - qy a) * (qx s - qx a)) by (field; auto).
  assert (0 <= qy s - (qy a + (qy b - qy a) / (qx b - qx a) * (qx s - qx a))); [|lra].
  apply mul_pos_le with (qx b - qx a); [lra|]. rewrite E. exact H.
Qed.
Lemma D_slope a b c : qx a < qx b -> qx b < qx c -> 0 <= D a b c -> slope (smp a) (smp b) <= slope (smp b) (smp c).
Proof.
  intros H1 H2 H. unfold slope, smp, D in *. cbn [fst snd].
  apply Qle_shift_div_l; [lra|].
  assert (E : (qy b - qy a) / (qx b - qx a) * (qx c - qx b) == (qy b - qy a) * (qx c - qx b) / (qx b - qx a))
    by (field; lra).
  rewrite E. apply Qle_shift_div_r; [lra|]. lra.
Qed.

Lemma SS_rev (A : Type) (R : A -> A -> Prop) l :
  StronglySorted R l -> StronglySorted (fun a b => R b a) (rev l).
Proof.
  induction l; simpl; intros H; [constructor|].
  inversion H; subst. specialize (IHl H2).
  assert (G : forall l1, StronglySorted (fun a b => R b a) l1 -> (forall x, In x l1 -> R a x) ->
     StronglySorted (fun a b => R b a) (l1 ++ [a])).
  { induction l1; simpl; intros K1 K2; [repeat constructor|].
    inversion K1; subst. constructor; [apply IHl1; auto|].
    rewrite Forall_forall in *. intros x Hx. apply in_app_iff in Hx. destruct Hx as [Hx|[<-|[]]]; auto. }
  apply G; auto. intros x Hx. rewrite Forall_forall in H3. apply H3. apply in_rev; auto.
Qed.
Lemma SS_map (A B : Type) (R : B -> B -> Prop) (f : A -> B) l :
  StronglySorted (fun a b => R (f a) (f b)) l -> StronglySorted R (map f l).
Proof.
  induction l; simpl; intros H; [constructor|]. inversion H; subst. constructor; auto.
  rewrite Forall_forall in *. intros x Hx. apply in_map_iff in Hx. destruct Hx as (y & <- & Hy). auto.
Qed.
Lemma hd_error_rev (A : Type) (l : list A) : hd_error (rev l) = match l with [] => None | x :: _ => Some (last l x) end.
Proof.
  destruct l as [|x l]; auto. assert (Hne : x :: l <> []) by discriminate.
  destruct (exists_last Hne) as (l' & a & E). rewrite E. rewrite last_last, rev_app_distr. reflexivity.
Qed.
Lemma last_rev (A : Type) (l : list A) d : last (rev l) d = hd d l.
Proof. destruct l as [|x l]; auto. simpl. apply last_last. Qed.
Lemma last_dflt (A : Type) (l : list A) a d d' : last (a :: l) d = last (a :: l) d'.
Proof. revert a. induction l as [|b l IH]; intros a; auto. exact (IH b). Qed.

Lemma map_app_inv (A B : Type) (f : A -> B) h l m : map f h = l ++ m ->
  exists l' m', h = l' ++ m' /\ map f l' = l /\ map f m' = m.
Proof.
  revert l. induction h as [|x h IH]; intros l H.
  - symmetry in H. apply app_eq_nil in H. destruct H as [-> ->]. exists [], []. auto.
  - destruct l as [|y l]; simpl in *.
    + exists [], (x :: h). auto.
    + injection H as <- H. destruct (IH _ H) as (l' & m' & -> & <- & <-). exists (x :: l'), m'. auto.
Qed.

Lemma next_in_hull h a b : next_in (map smp (rev h)) a b ->
  exists a' b' l r, a = smp a' /\ b = smp b' /\ h = l ++ b' :: a' :: r.
Proof.
  intros (l & r & E). apply map_app_inv in E. destruct E as (l' & m' & E & _ & E2).
  destruct m' as [|a' [|b' r']]; try discriminate. injection E2 as <- <- _.
  exists a', b', (rev r'), (rev l'). repeat split.
  apply (f_equal (@rev _)) in E. rewrite rev_involutive in E. rewrite E.
  rewrite rev_app_distr. simpl. rewrite <- !app_assoc. reflexivity.
Qed.
Lemma hull_next_in l b a r : next_in (map smp (rev (l ++ b :: a :: r))) (smp a) (smp b).
Proof.
  exists (map smp (rev r)), (map smp (rev l)). rewrite rev_app_distr. simpl.
  rewrite <- !app_assoc. rewrite map_app. reflexivity.
Qed.

Lemma adj_lt h l r a b : StronglySorted later h -> h = l ++ b :: a :: r -> qx a < qx b.
Proof. intros H ->. apply SS_app_r in H. inversion H; subst. inversion H3; auto. Qed.

(** In a descending list from its head to its last element every x in between is bracketed. *)
Lemma bracket h t x : StronglySorted later (t :: h) -> (h <> [])%nat -> x <= qx t ->
  qx (last h t) <= x ->
  exists l r a b, t :: h = l ++ b :: a :: r /\ qx a <= x <= qx b.
Proof.
  revert t. induction h as [|u h IH]; intros t Hs Hne H1 H2; [easy|].
  destruct (Qlt_le_dec x (qx u)) as [Hlt|Hle].
  - destruct h as [|v h].
    + exfalso. cbn [last] in H2. lra.
    + destruct (IH u) as (l & r & a & b & E & K); try easy.
      * inversion Hs; auto.
      * lra.
      * change (qx (last (v :: h) t) <= x) in H2. rewrite (last_dflt _ h v t u) in H2. exact H2.
      * exists (t :: l), r, a, b. rewrite E. auto.
  - exists [], h, u, t. auto.
Qed.

Lemma last_min (S : list QP) s d : StronglySorted later S -> In s S -> qx (last S d) <= qx s.
Proof.
  induction S as [|t S IH]; [easy|]. intros HS Hs. inversion HS; subst.
  destruct S as [|u S].
  - destruct Hs as [->|[]]. simpl. lra.
  - change (last (t :: u :: S) d) with (last (u :: S) d).
    destruct Hs as [->|Hs]; [|apply IH; auto].

    assert (K : In (last (u :: S) d) (u :: S)). { clear. revert u. induction S as [|q l IH]; intros u; [left; auto|]. right. exact (IH q). }
    rewrite Forall_forall in H2. specialize (H2 _ K). unfold later in H2. lra.
Qed.

Lemma hull_correct h S : Inv h S -> LowerHull (map smp (rev S)) (map smp (rev h)).
Proof.
  intros [Hi Hh HS Hd Hl Ha]. split.
  - intros p Hp. apply in_map_iff in Hp. destruct Hp as (q & <- & Hq). apply in_map.
    apply in_rev in Hq. apply -> in_rev. auto.
  - apply SS_map. apply (SS_rev _ later). exact Hh.
  - assert (G : hd_error (rev h) = hd_error (rev S)).
    { rewrite !hd_error_rev. destruct h as [|t h], S as [|t' S']; try discriminate; auto.
      f_equal. rewrite Hl. apply last_dflt. }
    destruct (rev h), (rev S); simpl in *; congruence.
  - intros d.
    assert (G : hd_error h = hd_error S) by auto.
    destruct h as [|t h], S as [|t' S']; try discriminate; auto. simpl. rewrite !map_app. cbn [map]. rewrite !last_last. injection G as ->. reflexivity.
  - intros a b c (l & r & E). 
    assert (N1 : next_in (map smp (rev h)) a b) by (exists l, (c :: r); auto).
    assert (N2 : next_in (map smp (rev h)) b c) by (exists (l ++ [a]), r; rewrite <- app_assoc; auto).
    apply map_app_inv in E. destruct E as (l' & m' & E & _ & E2).
    destruct m' as [|a' [|b' [|c' r']]]; try discriminate. injection E2 as <- <- <- _.
    apply (f_equal (@rev _)) in E. rewrite rev_involutive, rev_app_distr in E. simpl in E.
    rewrite <- !app_assoc in E. simpl in E.
    assert (E' : h = (rev r' ++ [c']) ++ b' :: a' :: rev l') by (rewrite <- app_assoc; auto).
    apply D_slope.
    + exact (adj_lt h _ _ _ _ Hh E').
    + exact (adj_lt h _ _ _ _ Hh E).
    + eapply allabove_adj; [|exact E']. apply Ha, Hi. rewrite E. apply in_app_iff. right. left. auto.
  - intros a b s N Hs. apply next_in_hull in N. destruct N as (a' & b' & l & r & -> & -> & E).
    apply in_map_iff in Hs. destruct Hs as (s' & <- & Hs). apply in_rev in Hs. cbn [smp fst snd].
    apply D_line; [exact (adj_lt h _ _ _ _ Hh E)|]. eapply allabove_adj; [|exact E]. auto.
  - intros s Hs Hlen. apply in_map_iff in Hs. destruct Hs as (s' & <- & Hs). apply in_rev in Hs.
    rewrite map_length, rev_length in Hlen.
    destruct h as [|t h]; [simpl in Hlen; lia|].
    destruct (bracket h t (qx s')) as (l & r & a & b & E & K); auto.
    + destruct h; [simpl in Hlen; lia|discriminate].
    + destruct S as [|t' S']; [easy|]. injection Hd as <-. inversion HS; subst.
      destruct Hs as [->|Hs]; [lra|]. rewrite Forall_forall in H2. specialize (H2 _ Hs). unfold later in H2. lra.
    + assert (E : last h t = last S t).
      { rewrite <- Hl. destruct h; auto. }
      rewrite E. apply last_min; auto.
    + exists (smp a), (smp b). split; [rewrite E; apply hull_next_in|exact K].
Qed.

(** * correctTimestamp *)
Record Good (c : core QTime) (S : list QP) : Prop := {
  g_inv : Inv (hull c) S;
  g_mid : (length (hull c) >= 3 -> Datatypes.S (mid c) < length (hull c))%nat }.

Lemma lowerBound_first (v : list QP) p m : qx p < m -> (1 <= lowerBound (p :: v) m)%nat.
Proof. intros H. cbn [lowerBound]. apply Qlt_bool_iff in H. change (t_lt QTime) with Qlt_bool. rewrite H. lia. Qed.
Lemma lowerBound_le (v : list QP) m : (lowerBound v m <= length v)%nat.
Proof. induction v; simpl; auto. destruct (Qlt_bool _ _); simpl; lia. Qed.
Lemma lowerBound_last (v : list QP) p m : m <= qx p -> (lowerBound (v ++ [p]) m <= length v)%nat.
Proof.
  intros H. induction v as [|a v IH]; cbn [lowerBound app length].
  - change (t_lt QTime) with Qlt_bool. destruct (Qlt_bool (qx p) m) eqn:E; auto. apply Qlt_bool_iff in E. lra.
  - change (t_lt QTime) with Qlt_bool. destruct (Qlt_bool _ _); simpl; lia.
Qed.

Lemma segment_adj (c : core QTime) a b : segment c = Some (a, b) ->
  exists l r, hull c = l ++ b :: a :: r /\ (Datatypes.S (mid c) < length (hull c))%nat.
Proof.
  unfold segment, points. destruct (nth_error _ (mid c)) eqn:E1; [|discriminate].
  destruct (nth_error _ (Datatypes.S (mid c))) eqn:E2; [|discriminate]. intros [= <- <-].
  apply nth_error_split in E1. destruct E1 as (l1 & l2 & E & Hlen).
  rewrite E in E2. rewrite nth_error_app2 in E2 by lia.
  replace (Datatypes.S (mid c) - length l1)%nat with 1%nat in E2 by lia.
  destruct l2 as [|q l2]; [discriminate|]. cbn in E2. injection E2 as ->.
  apply (f_equal (@rev _)) in E. rewrite rev_involutive, rev_app_distr in E. simpl in E.
  rewrite <- !app_assoc in E. exists (rev l2), (rev l1). split; [exact E|].
  rewrite E, app_length. simpl. rewrite !rev_length. lia.
Qed.
Lemma segment_total (c : core QTime) : (Datatypes.S (mid c) < length (hull c))%nat -> exists a b, segment c = Some (a, b).
Proof.
  intros H. unfold segment, points.
  destruct (nth_error (rev (hull c)) (mid c)) eqn:E1.
  2:{ apply nth_error_None in E1. rewrite rev_length in E1. lia. }
  destruct (nth_error (rev (hull c)) (Datatypes.S (mid c))) eqn:E2; eauto.
  apply nth_error_None in E2. rewrite rev_length in E2. lia.
Qed.

(** getLocalTime evaluates a supporting line. *)
Lemma getLocalTime_seg (c : core QTime) S r : Inv (hull c) S -> (Datatypes.S (mid c) < length (hull c))%nat ->
  exists a b, next_in (map smp (points c)) (smp a) (smp b) /\ qx a < qx b /\ segment c = Some (a, b) /\
    getLocalTime c r = Ret (line (smp a) (smp b) r) tt /\
    (forall s, In s S -> line (smp a) (smp b) (qx s) <= qy s).
Proof.
  intros Hi Hm. destruct (segment_total c Hm) as (a & b & E). destruct (segment_adj _ _ _ E) as (l & r' & Eh & _).
  assert (Hlt : qx a < qx b) by (eapply adj_lt; [apply (i_hs _ _ Hi)|exact Eh]).
  exists a, b. repeat split; auto.
  - unfold points. rewrite Eh. apply hull_next_in.
  - unfold getLocalTime. destruct (Nat.ltb_spec (length (hull c)) 2); [lia|]. rewrite E. reflexivity.
  - intros s Hs. apply D_line; auto. eapply allabove_adj; [|exact Eh]. apply (i_above _ _ Hi); auto.
Qed.

Definition accepts (S : list QP) (remote : Q) : Prop := match S with [] => True | t :: _ => qx t < remote end.

Lemma lowerBound_nth (v : list QP) m :
  (forall i a, (i < lowerBound v m)%nat -> nth_error v i = Some a -> qx a < m) /\
  (forall b, nth_error v (lowerBound v m) = Some b -> m <= qx b).
Proof.
  induction v as [|p v [IH1 IH2]]; cbn [lowerBound].
  - split; intros; [lia|discriminate].
  - change (t_lt QTime) with Qlt_bool. destruct (Qlt_bool (px p) m) eqn:E.
    + apply Qlt_bool_iff in E. split; [|exact IH2]. intros [|i] a Hi Hn.
      * injection Hn as <-. exact E.
      * apply (IH1 i); auto. lia.
    + split; [intros; lia|]. intros b [= <-]. unfold Qlt_bool in E. apply negb_false_iff in E.
      apply Qle_bool_iff. exact E.
Qed.

Lemma correctCore_reject c S r l : Good c S -> ~ accepts S r -> correctCore c r l = Throw TimeWentBackwards c.
Proof.
  intros [Hi _] Ha. unfold correctCore. pose proof (i_hd _ _ Hi) as Hd.
  destruct (hull c) as [|t h] eqn:E; destruct S as [|t' S']; try discriminate.
  - simpl in Ha. tauto.
  - injection Hd as <-. simpl in Ha. change (t_le QTime r (px t)) with (Qle_bool r (qx t)).
    destruct (Qle_bool r (qx t)) eqn:E2; auto. apply Qle_bool_false in E2. tauto.
Qed.

Lemma correctCore_accept (c : core QTime) S (r l : Q) : Good c S -> accepts S r ->
  exists v c', correctCore c r l = Ret v c' /\ Good c' ((qp r l) :: S) /\ v <= l /\
    ((length (hull c') < 3)%nat -> v = l /\ mid c' = mid c) /\
    ((length (hull c') >= 3)%nat -> exists a b, segment c' = Some (a, b) /\ v = line (smp a) (smp b) r /\
        let m := (qx (last (hull c') (qp r l)) + r) / 2 in qx a < m <= qx b).
Proof.
  intros [Hi Hm] Ha. unfold correctCore.
  assert (E0 : match hull c with top :: _ => t_le QTime r (px top) | [] => false end = false).
  { pose proof (i_hd _ _ Hi) as Hd. destruct (hull c) as [|t h], S as [|t' S']; try discriminate; auto.
    injection Hd as <-. simpl in Ha. apply Qle_bool_false. exact Ha. }
  rewrite E0. change (@mkP QTime r l) with (qp r l). set (p := qp r l) in *.
  destruct (push_inv (hull c) S p) as (h' & E1 & Hi'); auto.
  { pose proof (i_hd _ _ Hi) as Hd. destruct (hull c) as [|t h], S as [|t' S']; try discriminate; auto.
    injection Hd as <-. exact Ha. }
  rewrite E1.
  destruct (Nat.ltb_spec (length (p :: h')) 3) as [Hlt|Hge].
  - exists l, (mkCore (p :: h') (mid c)). split; [reflexivity|]. split; [split; [exact Hi'|cbn [hull]; lia]|]. split; [change (l <= l); lra|]. split; [auto|cbn [hull]; lia].
  - set (x0 := last (p :: h') p). change (t_mid QTime (px x0) r) with (Some ((qx x0 + r) / 2)).
    set (m := (qx x0 + r) / 2).
    assert (Hx0 : qx x0 < r).
    { destruct h' as [|q h']; [simpl in Hge; lia|].
      pose proof (i_hs _ _ Hi') as Hs. inversion Hs; subst. rewrite Forall_forall in H2.
      apply (H2 x0). subst x0. change (last (p :: q :: h') p) with (last (q :: h') p).
      clear. revert q. induction h' as [|u h' IH]; intros q; [left; auto|]. right. exact (IH u). }
    assert (Hm1 : qx x0 < m) by (subst m; apply Qlt_shift_div_l; lra).
    assert (Hm2 : m <= r) by (subst m; apply Qle_shift_div_r; lra).
    assert (Hlb1 : (1 <= lowerBound (rev (p :: h')) m)%nat).
    { pose proof (hd_error_rev _ (p :: h')) as E. cbn [hd_error] in E. fold x0 in E.
      destruct (rev (p :: h')) as [|q v]; [discriminate|]. injection E as ->. apply lowerBound_first; auto. }
    assert (Hlb2 : (lowerBound (rev (p :: h')) m <= length h')%nat).
    { cbn [rev]. rewrite <- (rev_length h'). apply lowerBound_last. exact Hm2. }
    destruct (lowerBound_nth (rev (p :: h')) m) as [N1 N2].
    destruct (lowerBound (rev (p :: h')) m) as [|i]; [lia|].
    set (c' := mkCore (p :: h') i).
    assert (Hc' : (Datatypes.S (mid c') < length (hull c'))%nat) by (cbn [mid hull c' length]; lia).
    destruct (getLocalTime_seg c' (p :: S) r Hi' Hc') as (a & b & Nab & Hab & Es & Eg & Hl).
    rewrite Eg. exists (line (smp a) (smp b) r), c'. split; [reflexivity|]. split; [split; [exact Hi'|auto]|].
    split; [apply (Hl p); left; auto|]. split; [cbn [hull c'] in *; lia|].
    { intros _. exists a, b. repeat split; auto.
      * unfold segment, points in Es. cbn [hull mid c'] in Es.
        destruct (nth_error _ i) as [a0|] eqn:E2 in Es; [|discriminate].
        destruct (nth_error _ (Datatypes.S i)) as [b0|] eqn:E3 in Es; [|discriminate].
        injection Es as -> ->. apply (N1 i); auto.
      * unfold segment, points in Es. cbn [hull mid c'] in Es.
        destruct (nth_error _ i) as [a0|] eqn:E2 in Es; [|discriminate].
        destruct (nth_error _ (Datatypes.S i)) as [b0|] eqn:E3 in Es; [|discriminate].
        injection Es as -> ->. apply N2; auto. }
Qed.
