(** C102: serialization of the kinematics classes. *)
From Verif Require Import EigenSer_Props KinSer_Model.

(** dimensions are positive *)
Fixpoint sound (s : schema) : Prop := match s with SNil => True | SMat r c k => (0 < r /\ 0 < c)%nat /\ sound k | SVal k => sound k | SObj i k => sound i /\ sound k end.

Lemma save_pos {A} r c (v : list A) : (0 < r)%nat -> (0 < c)%nat -> save (Mx (Z.of_nat r) (Z.of_nat c) v) = INum (Z.of_nat r) :: INum (Z.of_nat c) :: map IVal v.
Proof. intros R C. unfold save. cbn [rows cols data]. destruct (Z.ltb_spec 0 (Z.of_nat r)); [|lia]. destruct (Z.ltb_spec 0 (Z.of_nat c)); [|lia]. reflexivity. Qed.
Lemma load_scalars_app {A} (v old : list A) a : length old = length v -> load_scalars (length v) old (map IVal v ++ a) = (true, v, a).
Proof. revert old. induction v as [|x v IH]; intros old L. { destruct old; [reflexivity|discriminate]. } destruct old as [|y old]; [discriminate|]. cbn. rewrite IH by (cbn in L; lia). reflexivity. Qed.

(** what was saved is loaded, and the archive is left at what follows *)
Theorem kinematics_roundtrip {A} (s : schema) (v old : list A) rest : sound s -> length v = ssize s -> length old = ssize s -> sload s old (ssave s v ++ rest) = (Done, v, rest).
Proof.
  revert v old rest. induction s as [|r c k IH|k IH|i IHi k IHk]; intros v old rest; cbn [sound ssize ssave sload].
  - intros _ L _. destruct v; [auto|discriminate].
  - intros ((R & C) & K) L O. rewrite save_pos by auto. cbn [app]. unfold load_matrix. rewrite !Z.eqb_refl. cbn [negb]. rewrite <- app_assoc.
    assert (FL : length (firstn (r * c) v) = (r * c)%nat) by (rewrite firstn_length; lia). rewrite <- FL at 1. rewrite load_scalars_app by (rewrite !firstn_length; lia). rewrite IH by (auto; rewrite skipn_length; lia). rewrite firstn_skipn. auto.
  - intros K L O. destruct v as [|x v]; [discriminate|]. cbn [app]. destruct old as [|y old]; [discriminate|]. cbn [tl]. rewrite IH by (auto; cbn in *; lia). auto.
  - intros (I & K) L O. cbn [app]. rewrite Z.ltb_irrefl. rewrite <- app_assoc. rewrite IHi by (auto; rewrite firstn_length; lia). rewrite IHk by (auto; rewrite skipn_length; lia). rewrite firstn_skipn. auto.
Qed.

(** ** interrupted loads *)
(** new is the beginning of v followed by the rest of old *)
Definition mixed {A} (v old new : list A) (k : nat) : Prop := (k <= length v)%nat /\ new = firstn k v ++ skipn k old.
Lemma load_scalars_cut {A} (v old : list A) a cut : length old = length v -> map IVal v = a ++ cut -> cut <> [] ->
  exists a', load_scalars (length v) old a = (false, firstn (length a) v ++ skipn (length a) old, a') /\ (length a < length v)%nat.
Proof.
  revert old a. induction v as [|x v IH]; intros old a L E N. { destruct a; [cbn in E; congruence|discriminate]. }
  destruct a as [|i a]. { exists []. cbn. split; auto. lia. } destruct old as [|y old]; [discriminate|]. cbn in E. injection E as <- E. destruct (IH old a ltac:(cbn in L; lia) E N) as (a' & Q & H).
  exists a'. cbn. rewrite Q. split; auto. lia.
Qed.
Lemma app_split {T} (x y a b : list T) : x ++ y = a ++ b -> (exists c, c <> [] /\ x = a ++ c) \/ (exists c, a = x ++ c /\ y = c ++ b).
Proof.
  revert a. induction x as [|e x IH]; intros a E. { right. exists a. auto. }
  destruct a as [|e' a]. { left. exists (e :: x). split; [discriminate|auto]. } cbn in E. injection E as <- E. destruct (IH a E) as [(c & N & ->)|(c & -> & ->)]; [left; exists c; auto|right; exists c; auto].
Qed.
Lemma skipn_split {T} (l : list T) j n : (j <= n)%nat -> skipn j (firstn n l) ++ skipn n l = skipn j l.
Proof. revert l n. induction j as [|j IH]; intros l n H; cbn [skipn]. { apply firstn_skipn. } destruct n as [|n]; [lia|]. destruct l; cbn; auto. apply IH. lia. Qed.
Lemma firstn_split {T} (l : list T) n k : firstn n l ++ firstn k (skipn n l) = firstn (n + k) l.
Proof. revert l. induction n as [|n IH]; intros l; auto. destruct l; cbn. { destruct k; auto. } f_equal. apply IH. Qed.
(** An archive cut off anywhere is noticed, but the object then holds the beginning of the saved scalars and the rest of its old ones *)
Theorem kinematics_truncated {A} (s : schema) (v old : list A) a cut : sound s -> length v = ssize s -> length old = ssize s -> ssave s v = a ++ cut -> cut <> [] ->
  exists new a' k, sload s old a = (StreamE, new, a') /\ mixed v old new k.
Proof.
  revert v old a cut. induction s as [|r c k IH|k IH|i IHi k IHk]; intros v old a cut; cbn [sound ssize ssave sload].
  - intros _ _ _ E N. destruct a; [cbn in E; congruence|discriminate].
  - intros ((R & C) & K) L O E N. rewrite save_pos in E by auto. cbn [app] in E.
    destruct a as [|i1 a]. { exists old, [], 0%nat. unfold load_matrix. rewrite firstn_skipn. split; auto. split; [lia|auto]. }
    cbn in E. injection E as <- E. destruct a as [|i2 a]. { exists old, [], 0%nat. unfold load_matrix. rewrite firstn_skipn. split; auto. split; [lia|auto]. }
    cbn in E. injection E as <- E. unfold load_matrix. rewrite !Z.eqb_refl. cbn [negb].
    assert (FL : length (firstn (r * c) v) = (r * c)%nat) by (rewrite firstn_length; lia).
    destruct (app_split _ _ _ _ E) as [(cc & Nc & Ec)|(cc & -> & Ec)].
    + destruct (load_scalars_cut (firstn (r * c) v) (firstn (r * c) old) a cc ltac:(rewrite !firstn_length; lia) Ec Nc) as (a' & Q & H). rewrite FL in Q, H. rewrite Q.
      exists (firstn (length a) v ++ skipn (length a) old), a', (length a). split. 2: split; [lia|auto].
      f_equal. f_equal. rewrite <- app_assoc. f_equal. { rewrite firstn_firstn. f_equal. lia. }
      apply skipn_split. lia.
    + assert (LS : load_scalars (r * c) (firstn (r * c) old) (map IVal (firstn (r * c) v) ++ cc) = (true, firstn (r * c) v, cc)) by (rewrite <- FL at 1; apply load_scalars_app; rewrite !firstn_length; lia). rewrite LS. destruct (IH (skipn (r * c) v) (skipn (r * c) old) cc cut K ltac:(rewrite skipn_length; lia) ltac:(rewrite skipn_length; lia) Ec N) as (new & a' & kk & Q & (H & ->)). rewrite Q.
      eexists _, a', (r * c + kk)%nat. split; [reflexivity|]. rewrite skipn_length in H. split; [lia|].
      rewrite app_assoc. f_equal.
      * apply firstn_split.
      * clear. revert old. induction (r * c)%nat as [|n IHn]; intros old; auto. destruct old; cbn; auto. destruct kk; auto.
  - intros K L O E N. destruct v as [|x v]; [discriminate|]. destruct old as [|y old]; [discriminate|]. destruct a as [|i a]. { exists (y :: old), [], 0%nat. split; auto. split; [lia|auto]. }
    cbn in E. injection E as <- E. cbn [tl]. destruct (IH v old a cut K ltac:(cbn in *; lia) ltac:(cbn in *; lia) E N) as (new & a' & kk & Q & (H & ->)). rewrite Q. exists (x :: firstn kk v ++ skipn kk old), a', (S kk). split; auto. split; [cbn; lia|auto].
  - intros (I & K) L O E N. destruct a as [|i1 a]. { exists old, [], 0%nat. split; auto. split; [lia|auto]. }
    cbn in E. injection E as <- E. rewrite Z.ltb_irrefl. assert (FL : length (firstn (ssize i) v) = ssize i) by (rewrite firstn_length; lia).
    destruct (app_split _ _ _ _ E) as [(cc & Nc & Ec)|(cc & -> & Ec)].
    + destruct (IHi (firstn (ssize i) v) (firstn (ssize i) old) a cc I FL ltac:(rewrite firstn_length; lia) Ec Nc) as (new & a' & kk & Q & (H & ->)). rewrite Q. eexists _, a', kk. split; [reflexivity|]. rewrite FL in H. split; [lia|].
      rewrite <- app_assoc. f_equal. { rewrite firstn_firstn. f_equal. lia. } apply skipn_split. lia.
    + rewrite kinematics_roundtrip by (auto; rewrite firstn_length; lia). destruct (IHk (skipn (ssize i) v) (skipn (ssize i) old) cc cut K ltac:(rewrite skipn_length; lia) ltac:(rewrite skipn_length; lia) Ec N) as (new & a' & kk & Q & (H & ->)). rewrite Q.
      eexists _, a', (ssize i + kk)%nat. split; [reflexivity|]. rewrite skipn_length in H. split; [lia|].
      rewrite app_assoc. f_equal.
      * apply firstn_split.
      * clear. revert old. induction (ssize i) as [|n IHn]; intros old; auto. destruct old; cbn; auto. destruct kk; auto.
Qed.

(** whatever the archive holds, the object keeps its dimensions *)
Lemma load_scalars_length {A} n (old : list A) a : (n <= length old)%nat -> length (snd (fst (load_scalars n old a))) = length old.
Proof. revert old a. induction n as [|n IH]; intros old a H; auto. destruct old as [|y old]; [cbn in H; lia|]. destruct a as [|[z|x] a]; auto. cbn [load_scalars tl]. specialize (IH old a ltac:(cbn in H; lia)). destruct (load_scalars n old a) as [[b r] a'']. cbn in *. congruence. Qed.
Lemma load_matrix_length {A} r c (old : list A) a : length old = (r * c)%nat -> length (snd (fst (load_matrix r c old a))) = length old.
Proof.
  intros L. unfold load_matrix. destruct a as [|[z|x] a]; auto. destruct a as [|[z2|x2] a]; auto. destruct (negb _); auto. destruct (negb _); auto.
  pose proof (load_scalars_length (r * c) old a ltac:(lia)) as H. destruct (load_scalars (r * c) old a) as [[b v] a'']. auto.
Qed.
Theorem kinematics_keeps_size {A} (s : schema) (old : list A) a : length old = ssize s -> length (snd (fst (sload s old a))) = ssize s.
Proof.
  revert old a. induction s as [|r c k IH|k IH|i IHi k IHk]; intros old a; cbn [ssize sload]; intros L; auto.
  - pose proof (load_matrix_length r c (firstn (r * c) old) a ltac:(rewrite firstn_length; lia)) as H. rewrite firstn_length in H. destruct (load_matrix r c (firstn (r * c) old) a) as [[o v] a']. cbn [fst snd] in H.
    destruct o; cbn [fst snd]; try (rewrite app_length, skipn_length; lia). specialize (IH (skipn (r * c) old) a' ltac:(rewrite skipn_length; lia)). destruct (sload k _ a') as [[o v'] a'']. cbn [fst snd] in *. rewrite app_length. lia.
  - destruct a as [|[z|x] a]; auto. destruct old as [|y old]; [discriminate|]. cbn [tl]. specialize (IH old a ltac:(cbn in L; lia)). destruct (sload k old a) as [[o v'] a'']. cbn [fst snd length] in *. lia.
  - destruct a as [|[z|x] a]; auto. destruct (0 <? z); auto. specialize (IHi (firstn (ssize i) old) a ltac:(rewrite firstn_length; lia)). destruct (sload i _ a) as [[o v] a']. cbn [fst snd] in IHi.
    destruct o; cbn [fst snd]; try (rewrite app_length, skipn_length; lia). specialize (IHk (skipn (ssize i) old) a' ltac:(rewrite skipn_length; lia)). destruct (sload k _ a') as [[o v'] a'']. cbn [fst snd] in *. rewrite app_length. lia.
Qed.
(** an archive of a newer version of the class is refused and the object keeps its value *)
Theorem kinematics_newer_version {A} (s : schema) (old : list A) v a : 0 < v -> sload (SObj s SNil) old (INum v :: a) = (VersionE, old, a).
Proof. intros H. cbn. destruct (Z.ltb_spec 0 v); auto. lia. Qed.
(** the matrix part is the load of C86 *)
Theorem load_matrix_is_eigen_load {A} r c b (x : matrix A) a : (0 < r)%nat -> (0 < c)%nat -> rows x = Z.of_nat r -> cols x = Z.of_nat c -> length (data x) = (r * c)%nat ->
  forall v rest, load_matrix r c (data x) a = (Done, v, rest) <-> load (MT (Some (Z.of_nat r)) (Some (Z.of_nat c)) b) x a = Ok (Mx (Z.of_nat r) (Z.of_nat c) v, rest).
Proof.
  intros R C RX CX L v rest. unfold load, load_fixed, load_matrix. cbn [ty_rows ty_cols].
  destruct a as [|[z|y] a]; cbn [read_index bind]; try (split; discriminate). destruct a as [|[z2|y] a]; cbn [read_index bind]; try (split; discriminate).
  rewrite (Z.eqb_sym z), (Z.eqb_sym z2). destruct (Z.eqb_spec (Z.of_nat r) z) as [<-|]; cbn [negb]; [|split; discriminate]. destruct (Z.eqb_spec (Z.of_nat c) z2) as [<-|]; cbn [negb]; [|split; discriminate].
  destruct (Z.ltb_spec 0 (Z.of_nat r)); [|lia]. destruct (Z.ltb_spec 0 (Z.of_nat c)); [|lia]. cbn [andb]. unfold read_data, addr00. destruct (Z.ltb_spec 0 (Z.of_nat r)); [|lia]. destruct (Z.ltb_spec 0 (Z.of_nat c)); [|lia]. cbn [andb bind].
  replace (Z.to_nat (Z.of_nat r * Z.of_nat c)) with (r * c)%nat by lia. clear RX CX. revert L. generalize (data x) as old. generalize (r * c)%nat as n. clear R C H H0 H1 H2. clear x. intros n old L.
  assert (G : load_scalars n old a = match read_array A n a with Ok (l, r) => (true, l, r) | _ => load_scalars n old a end /\ (fst (fst (load_scalars n old a)) = true <-> exists p, read_array A n a = Ok p)).
  { revert old a L. induction n as [|n IH]; intros old a L. { destruct old; [|discriminate]. cbn. split; auto. split; eauto. } destruct old as [|y old]; [discriminate|].
    destruct a as [|[z|x0] a]; cbn [load_scalars read_array fst]; try (split; [reflexivity|split; [discriminate|intros (p & F); discriminate]]). cbn [tl].
    destruct (IH old a ltac:(cbn in L; lia)) as (E & I). destruct (read_array A n a) as [[l r1]| | | |]; cbn [bind].
    - rewrite E. cbn. split; auto. split; eauto.
    - split; [reflexivity|]. destruct (load_scalars n old a) as [[b0 v0] a0]. cbn in *. split; [intros H; apply I in H; destruct H; discriminate|intros (p & F); discriminate].
    - split; [reflexivity|]. destruct (load_scalars n old a) as [[b0 v0] a0]. cbn in *. split; [intros H; apply I in H; destruct H; discriminate|intros (p & F); discriminate].
    - split; [reflexivity|]. destruct (load_scalars n old a) as [[b0 v0] a0]. cbn in *. split; [intros H; apply I in H; destruct H; discriminate|intros (p & F); discriminate].
    - split; [reflexivity|]. destruct (load_scalars n old a) as [[b0 v0] a0]. cbn in *. split; [intros H; apply I in H; destruct H; discriminate|intros (p & F); discriminate]. }
  destruct G as (E & I). destruct (read_array A n a) as [[l r0]| | | |]; cbn [bind].
  1: { rewrite E. split; intros H; injection H as -> ->; reflexivity. }
  all: destruct (load_scalars n old a) as [[b0 v0] a0]; cbn in *; split; [|discriminate]; intros H; exfalso; destruct b0; [|discriminate]; destruct (proj1 I eq_refl) as (p & F); discriminate.
Qed.
(** several objects in one archive come back in order *)
Fixpoint load_objects {A} (n : nat) (s : schema) (old : list A) (a : list (item A)) : option (list (list A) * list (item A)) :=
  match n with O => Some ([], a) | S n' => match sload s old a with (Done, v, a') => match load_objects n' s v a' with Some (l, r) => Some (v :: l, r) | None => None end | _ => None end end.
Theorem kinematics_sequence {A} (s : schema) (vs : list (list A)) old rest : sound s -> length old = ssize s -> Forall (fun v => length v = ssize s) vs ->
  load_objects (length vs) s old (flat_map (ssave s) vs ++ rest) = Some (vs, rest).
Proof. intros S O F. revert old O. induction F as [|v vs L F IH]; intros old O; auto. cbn [length load_objects flat_map]. rewrite <- app_assoc, kinematics_roundtrip by auto. rewrite IH by auto. auto. Qed.

(** the classes meet the conditions *)
Theorem kinematics_classes D : (0 < D)%nat -> sound transformation /\ sound uncertainTransformation /\ sound homogeneousPoint /\ sound uncertainHomogeneousPoint /\ sound (uncertainVector D) /\ sound uncertainScalar /\
  ssize transformation = 7%nat /\ ssize uncertainTransformation = 43%nat /\ ssize homogeneousPoint = 4%nat /\ ssize uncertainHomogeneousPoint = 20%nat /\ ssize (uncertainVector D) = (D + D * D)%nat /\ ssize uncertainScalar = 2%nat.
Proof. intros H. cbn. repeat split; lia. Qed.
(** So a failed load is not without effect: here it turns two rotations into a zero quaternion *)
Theorem kinematics_failed_load_refuted : exists (T old new : list Z) a cut rest, length T = 7%nat /\ length old = 7%nat /\ ssave transformation T = a ++ cut /\ cut <> [] /\
  sload transformation old a = (StreamE, new, rest) /\ new <> old /\ firstn 4 T = [0; 0; 0; 1] /\ firstn 4 old = [1; 0; 0; 0] /\ firstn 4 new = [0; 0; 0; 0].
Proof.
  exists [0; 0; 0; 1; 5; 6; 7], [1; 0; 0; 0; 8; 8; 8], [0; 0; 0; 0; 8; 8; 8], (firstn 5 (ssave transformation [0; 0; 0; 1; 5; 6; 7])), (skipn 5 (ssave transformation [0; 0; 0; 1; 5; 6; 7])), [].
  cbn. repeat split; try discriminate.
Qed.
(** a transformation and an uncertain one are not taken for each other: the load is refused and changes nothing *)
Theorem transformation_kinds {A} (T old U oldU : list A) rest : length T = 7%nat -> length old = 7%nat -> length U = 43%nat -> length oldU = 43%nat ->
  (exists a, sload transformation old (ssave uncertainTransformation U ++ rest) = (SizeE, old, a)) /\
  (exists a, sload uncertainTransformation oldU (ssave transformation T ++ rest) = (VersionE, oldU, a)).
Proof.
  intros L1 L2 L3 L4. split.
  - eexists. unfold transformation, uncertainTransformation. cbn [ssave app sload]. rewrite Z.ltb_irrefl. unfold load_matrix at 1. rewrite save_pos by lia. cbn [app Z.of_nat Z.eqb negb]. change (ssize (SMat 4 1 (SMat 3 1 SNil))) with 7%nat. change (4 * 1)%nat with 4%nat. cbn [Nat.mul Nat.add].
    rewrite firstn_skipn, <- L2, firstn_all, skipn_all, app_nil_r. reflexivity.
  - eexists. unfold transformation, uncertainTransformation. cbn [ssave app sload]. rewrite Z.ltb_irrefl. rewrite save_pos by lia. cbn [app]. destruct (Z.ltb_spec 0 (Z.of_nat 4)); [|lia].
    rewrite firstn_skipn. reflexivity.
Qed.
