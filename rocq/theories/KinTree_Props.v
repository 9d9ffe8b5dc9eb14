(** C104: reading vectors, quaternions and transformations from a property tree. *)
From Coq Require Import Reals Lra.
From Verif Require Import Bytes PTree_Spec PTree_Model PTree_Props LinAlg Kin_Quat_Props Kin_Quat_Model KinTree_Model.
Open Scope nat_scope.

Definition tq := str "q_a_b". Definition tt_ := str "t_a_b_a".
(** the value a user writes under q_a_b/x and so on, seen from a view *)
Definition reads (tr : bytes -> option R) (t : ptree) (b : list bytes) (path : list bytes) (v : R) : Prop := getX tr t (view_text b) (rel_text path) = Ok v.
Lemma seg s : ~ In 47%N (str s) -> ~ In 0%N (str s) -> str s <> [] -> segment (str s). Proof. unfold segment. auto. Qed.
Lemma keys_ok : segment tq /\ segment tt_ /\ segment (str "x") /\ segment (str "y") /\ segment (str "z") /\ segment (str "w").
Proof. repeat split; cbn; try discriminate; intuition discriminate. Qed.
Lemma child_read tr t b c k : Forall segment b -> segment c -> segment k -> getX (A := R) tr t (view_child (view_text b) c) k = getX tr t (view_text b) (rel_text [c; k]).
Proof.
  intros B C K. destruct (views_read R tr t b [c] [k] []) as (E & _); auto; try discriminate. { apply Forall_app. split; auto. constructor; auto. }
  rewrite app_nil_r in E. exact E.
Qed.

(** When all seven numbers can be read and the quaternion is not zero: the transformation with the normalised quaternion and the translation *)
Theorem transformation_from_tree_partial tr t b q v : Forall segment b ->
  (reads tr t b [tq; str "x"] (e0 q) /\ reads tr t b [tq; str "y"] (e1 q) /\ reads tr t b [tq; str "z"] (e2 q) /\ reads tr t b [tq; str "w"] (e3 q) /\
    reads tr t b [tt_; str "x"] (vx v) /\ reads tr t b [tt_; str "y"] (vy v) /\ reads tr t b [tt_; str "z"] (vz v)) ->
   q <> V4 0 0 0 0 -> exists u, transformationFromPropertyTree tr t (view_text b) = Ok (Some u, v) /\ unit4 u /\ u = scale4 (/ sqrt (dot4 q q)) q.
Proof.
  intros B (X & Y & Z & W & TX & TY & TZ) NZ. unfold reads in *. destruct keys_ok as (K1 & K2 & K3 & K4 & K5 & K6).
  unfold transformationFromPropertyTree, quaternionFromPropertyTree, vector3FromPropertyTree. fold tq tt_. rewrite !child_read by auto. rewrite X, Y, Z, W, TX, TY, TZ. cbn [bindr].
  assert (D : (0 < dot4 q q)%R).
  { destruct (Rlt_dec 0 (dot4 q q)) as [|N]; auto. exfalso. apply NZ. destruct q as [x y z w]. unfold dot4 in N. cbn [e0 e1 e2 e3] in N.
    pose proof (Rle_0_sqr x). pose proof (Rle_0_sqr y). pose proof (Rle_0_sqr z). pose proof (Rle_0_sqr w). unfold Rsqr in *. f_equal; apply Rsqr_0_uniq; unfold Rsqr; lra. }
  replace (V4 (e0 q) (e1 q) (e2 q) (e3 q)) with q by (destruct q; auto). replace (V3 (vx v) (vy v) (vz v)) with v by (destruct v; auto).
  pose proof (sqrt_lt_R0 _ D) as SP. destruct (Req_EM_T _ _) as [E|_]; [lra|]. eexists. split; [reflexivity|]. split; [|reflexivity].
  unfold unit4. replace (dot4 (scale4 (/ sqrt (dot4 q q)) q) (scale4 (/ sqrt (dot4 q q)) q)) with (/ sqrt (dot4 q q) * / sqrt (dot4 q q) * dot4 q q)%R ; [|generalize (/ sqrt (dot4 q q))%R; intros k; clear; destruct q as [x y z w]; cbv [dot4 scale4 e0 e1 e2 e3]; ring].
  set (n := sqrt (dot4 q q)) in *. assert (NN : (dot4 q q = n * n)%R) by (symmetry; apply sqrt_sqrt; lra). rewrite NN. field. lra.
Qed.

(** it returns exactly when all seven numbers can be read; otherwise it throws what the first unreadable one throws *)
Theorem transformation_from_tree_returns tr t b : Forall segment b ->
  ((exists r, transformationFromPropertyTree tr t (view_text b) = Ok r) <->
   (forall k, In k [[tq; str "x"]; [tq; str "y"]; [tq; str "z"]; [tq; str "w"]; [tt_; str "x"]; [tt_; str "y"]; [tt_; str "z"]] -> exists x, reads tr t b k x)) /\
  ((forall r, transformationFromPropertyTree tr t (view_text b) <> Ok r) -> exists done k rest, [[tq; str "x"]; [tq; str "y"]; [tq; str "z"]; [tq; str "w"]; [tt_; str "x"]; [tt_; str "y"]; [tt_; str "z"]] = done ++ k :: rest /\
     (forall j, In j done -> exists x, reads tr t b j x) /\ bindr (getX tr t (view_text b) (rel_text k)) (fun _ => Undefined) = transformationFromPropertyTree tr t (view_text b)).
Proof.
  intros B. unfold reads. destruct keys_ok as (K1 & K2 & K3 & K4 & K5 & K6).
  unfold transformationFromPropertyTree, quaternionFromPropertyTree, vector3FromPropertyTree. fold tq tt_. rewrite !child_read by auto.
  set (ks := [[tq; str "x"]; [tq; str "y"]; [tq; str "z"]; [tq; str "w"]; [tt_; str "x"]; [tt_; str "y"]; [tt_; str "z"]]).
  assert (IS : forall k, (exists x, getX tr t (view_text b) (rel_text k) = Ok x) \/ (forall x, getX tr t (view_text b) (rel_text k) <> Ok x)) by (intros k; destruct (getX tr t (view_text b) (rel_text k)); eauto; right; discriminate).
  destruct (IS [tq; str "x"]) as [(x & X)|N].
  2: { split. { split; [intros (r & F); exfalso; destruct (getX tr t (view_text b) (rel_text [tq; str "x"])); cbn in F; try discriminate; eapply N; reflexivity|intros A; exfalso; destruct (A [tq; str "x"]) as (x & X); [left; auto|eapply N; eauto]]. }
       intros _. exists [], [tq; str "x"], (tl ks). split; [reflexivity|]. split; [intros j []|]. destruct (getX tr t (view_text b) (rel_text [tq; str "x"])); auto. exfalso. eapply N. reflexivity. }
  rewrite X. cbn [bindr].
  destruct (IS [tq; str "y"]) as [(y & Y)|N].
  2: { split. { split; [intros (r & F); exfalso; destruct (getX tr t (view_text b) (rel_text [tq; str "y"])); cbn in F; try discriminate; eapply N; reflexivity|intros A; exfalso; destruct (A [tq; str "y"]) as (y & Y); [right; left; auto|eapply N; eauto]]. }
       intros _. exists [[tq; str "x"]], [tq; str "y"], (skipn 2 ks). split; [reflexivity|]. split; [intros j [<-|[]]; eauto|]. destruct (getX tr t (view_text b) (rel_text [tq; str "y"])); auto. exfalso. eapply N. reflexivity. }
  rewrite Y. cbn [bindr].
  destruct (IS [tq; str "z"]) as [(z & Z)|N].
  2: { split. { split; [intros (r & F); exfalso; destruct (getX tr t (view_text b) (rel_text [tq; str "z"])); cbn in F; try discriminate; eapply N; reflexivity|intros A; exfalso; destruct (A [tq; str "z"]) as (z & Z); [right; right; left; auto|eapply N; eauto]]. }
       intros _. exists [[tq; str "x"]; [tq; str "y"]], [tq; str "z"], (skipn 3 ks). split; [reflexivity|]. split; [intros j [<-|[<-|[]]]; eauto|]. destruct (getX tr t (view_text b) (rel_text [tq; str "z"])); auto. exfalso. eapply N. reflexivity. }
  rewrite Z. cbn [bindr].
  destruct (IS [tq; str "w"]) as [(w & W)|N].
  2: { split. { split; [intros (r & F); exfalso; destruct (getX tr t (view_text b) (rel_text [tq; str "w"])); cbn in F; try discriminate; eapply N; reflexivity|intros A; exfalso; destruct (A [tq; str "w"]) as (w & W); [do 3 right; left; auto|eapply N; eauto]]. }
       intros _. exists [[tq; str "x"]; [tq; str "y"]; [tq; str "z"]], [tq; str "w"], (skipn 4 ks). split; [reflexivity|]. split; [intros j [<-|[<-|[<-|[]]]]; eauto|]. destruct (getX tr t (view_text b) (rel_text [tq; str "w"])); auto. exfalso. eapply N. reflexivity. }
  rewrite W. cbn [bindr].
  destruct (IS [tt_; str "x"]) as [(tx & TX)|N].
  2: { split. { split; [intros (r & F); exfalso; destruct (getX tr t (view_text b) (rel_text [tt_; str "x"])); cbn in F; try discriminate; eapply N; reflexivity|intros A; exfalso; destruct (A [tt_; str "x"]) as (tx & TX); [do 4 right; left; auto|eapply N; eauto]]. }
       intros _. exists (firstn 4 ks), [tt_; str "x"], (skipn 5 ks). split; [reflexivity|]. split; [cbn [firstn ks]; intros j [<-|[<-|[<-|[<-|[]]]]]; eauto|]. destruct (getX tr t (view_text b) (rel_text [tt_; str "x"])); auto. exfalso. eapply N. reflexivity. }
  rewrite TX. cbn [bindr].
  destruct (IS [tt_; str "y"]) as [(ty & TY)|N].
  2: { split. { split; [intros (r & F); exfalso; destruct (getX tr t (view_text b) (rel_text [tt_; str "y"])); cbn in F; try discriminate; eapply N; reflexivity|intros A; exfalso; destruct (A [tt_; str "y"]) as (ty & TY); [do 5 right; left; auto|eapply N; eauto]]. }
       intros _. exists (firstn 5 ks), [tt_; str "y"], (skipn 6 ks). split; [reflexivity|]. split; [cbn [firstn ks]; intros j [<-|[<-|[<-|[<-|[<-|[]]]]]]; eauto|]. destruct (getX tr t (view_text b) (rel_text [tt_; str "y"])); auto. exfalso. eapply N. reflexivity. }
  rewrite TY. cbn [bindr].
  destruct (IS [tt_; str "z"]) as [(tz & TZ)|N].
  2: { split. { split; [intros (r & F); exfalso; destruct (getX tr t (view_text b) (rel_text [tt_; str "z"])); cbn in F; try discriminate; eapply N; reflexivity|intros A; exfalso; destruct (A [tt_; str "z"]) as (tz & TZ); [do 6 right; left; auto|eapply N; eauto]]. }
       intros _. exists (firstn 6 ks), [tt_; str "z"], []. split; [reflexivity|]. split; [cbn [firstn ks]; intros j [<-|[<-|[<-|[<-|[<-|[<-|[]]]]]]]; eauto|]. destruct (getX tr t (view_text b) (rel_text [tt_; str "z"])); auto. exfalso. eapply N. reflexivity. }
  rewrite TZ. cbn [bindr]. split; [|intros A; exfalso; eapply A; reflexivity]. split; [|intros _; eauto]. intros _ j. cbn [In ks]. intros [<-|[<-|[<-|[<-|[<-|[<-|[<-|[]]]]]]]]; eauto.
Qed.
(** the zero quaternion (a value that was forgotten, say) is accepted and gives a transformation of NaNs *)
Theorem transformation_from_tree_refuted tr t b v : Forall segment b ->
  (reads tr t b [tq; str "x"] 0 /\ reads tr t b [tq; str "y"] 0 /\ reads tr t b [tq; str "z"] 0 /\ reads tr t b [tq; str "w"] 0 /\
   reads tr t b [tt_; str "x"] (vx v) /\ reads tr t b [tt_; str "y"] (vy v) /\ reads tr t b [tt_; str "z"] (vz v)) -> transformationFromPropertyTree tr t (view_text b) = Ok (None, v).
Proof.
  intros B (X & Y & Z & W & TX & TY & TZ). unfold reads in *. destruct keys_ok as (K1 & K2 & K3 & K4 & K5 & K6).
  unfold transformationFromPropertyTree, quaternionFromPropertyTree, vector3FromPropertyTree. fold tq tt_. rewrite !child_read by auto. rewrite X, Y, Z, W, TX, TY, TZ. cbn [bindr].
  replace (dot4 _ _) with 0%R by (unfold dot4; cbn [e0 e1 e2 e3]; ring). rewrite sqrt_0. destruct (Req_EM_T 0 0); [|lra]. destruct v; auto.
Qed.
(** cases: configurations as text *)
Definition trZ (s : bytes) : option R := option_map IZR (parse_int s).
Example config_case : exists t, loadString pempty (str "q_a_b{x=0,y=3,z=0,w=4},t_a_b_a{x=1,y=2,z=3}") = (t, Ok tt) /\ 
  (reads trZ t [] [tq; str "x"] 0 /\ reads trZ t [] [tq; str "y"] 3 /\ reads trZ t [] [tq; str "z"] 0 /\ reads trZ t [] [tq; str "w"] 4 /\
   reads trZ t [] [tt_; str "x"] 1 /\ reads trZ t [] [tt_; str "y"] 2 /\ reads trZ t [] [tt_; str "z"] 3).
Proof. eexists. split; [reflexivity|]. unfold reads. repeat split; reflexivity. Qed.
Example config_zero : exists t, loadString pempty (str "q_a_b{x=0,y=0,z=0,w=0},t_a_b_a{x=1,y=2,z=3}") = (t, Ok tt) /\ transformationFromPropertyTree trZ t (view_text []) = Ok (None, V3 1 2 3).
Proof. eexists. split; [reflexivity|]. apply (transformation_from_tree_refuted trZ _ [] (V3 1 2 3)); [constructor|]. unfold reads. repeat split; reflexivity. Qed.
Example config_missing : exists t, loadString pempty (str "q_a_b{x=0,y=0,z=0},t_a_b_a{x=1,y=2,z=3}") = (t, Ok tt) /\ transformationFromPropertyTree trZ t (view_text []) = InvalidKey.
Proof. eexists. split; [reflexivity|]. reflexivity. Qed.
