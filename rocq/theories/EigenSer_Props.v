(** C86: what is saved is what is loaded. *)
From Verif Require Import EigenSer_Model.

(** ** specification *)
(** the objects of type t: the fixed dimensions have their value, there is one element per position, and the size fits the index type *)
Definition dim_ok (d : option Z) (n : Z) : Prop := match d with Some a => n = a | None => True end.
Definition of_type {A} (t : mtype) (m : matrix A) : Prop :=
  dim_ok (ty_rows t) (rows m) /\ dim_ok (ty_cols t) (cols m) /\ 0 <= rows m /\ 0 <= cols m /\ rows m * cols m < 2 ^ 63 /\ Z.of_nat (length (data m)) = rows m * cols m.
(** the row-vector overload (fixed rows, dynamic columns) *)
Definition wide (t : mtype) : Prop := ty_rows t <> None /\ ty_cols t = None.
Definition empty {A} (m : matrix A) : Prop := rows m = 0 \/ cols m = 0.
(** same matrix: shape and every element *)
Definition same_elems {A} (t u : mtype) (x y : matrix A) : Prop := rows x = rows y /\ cols x = cols y /\ forall i j, elem t x i j = elem u y i j.

Lemma read_array_app {A} (l : list A) ar : read_array A (length l) (map IVal l ++ ar) = Ok (l, ar).
Proof. induction l as [|a l IH]; cbn [length read_array map app]; auto. rewrite IH. reflexivity. Qed.
Lemma read_array_short {A} (l : list A) n ar : (length ar < n)%nat -> ar = map IVal l -> read_array A n ar = StreamError.
Proof. revert ar n. induction l as [|a l IH]; intros ar n L ->; cbn in L; destruct n; try lia; cbn; auto. rewrite (IH (map IVal l)); auto. lia. Qed.
Lemma read_array_inv {A} n ar (l : list A) r : read_array A n ar = Ok (l, r) -> ar = map IVal l ++ r /\ length l = n.
Proof.
  revert ar l r. induction n; intros ar l r; cbn. intros E; inversion E; subst; auto. destruct ar as [|[z|a] ar]; try discriminate. destruct (read_array A n ar) as [[l' r']| | | |] eqn:E; cbn; try discriminate. intros F; inversion F; subst. apply IHn in E. destruct E as [-> <-]. auto.
Qed.
Lemma data_empty {A} (t : mtype) (m : matrix A) : of_type t m -> empty m -> data m = [].
Proof. intros (_ & _ & _ & _ & _ & L) E. assert (rows m * cols m = 0) by (destruct E as [->| ->]; lia). destruct (data m); auto. cbn in L. lia. Qed.
Lemma pos_of {A} (t : mtype) (m : matrix A) : of_type t m -> (0 <? rows m) && (0 <? cols m) = true <-> ~ empty m.
Proof. intros (_ & _ & R & C & _). unfold empty. rewrite andb_true_iff, !Z.ltb_lt. lia. Qed.
Lemma read_data_saved {A} (t : mtype) (m : matrix A) ar : of_type t m -> ~ empty m -> read_data A (rows m) (cols m) (map IVal (data m) ++ ar) = Ok (m, ar).
Proof.
  intros T N. unfold read_data, addr00. rewrite (proj2 (pos_of t m T) N). cbn [bind]. replace (Z.to_nat (rows m * cols m)) with (length (data m)) by (destruct T as (_ & _ & _ & _ & _ & L); lia). rewrite read_array_app. cbn [bind]. destruct m; reflexivity.
Qed.
Lemma resize_ok {A} (t : mtype) (m : matrix A) : of_type t m -> resize (rows m) (cols m) = Ok tt.
Proof. intros (_ & _ & R & C & S & _). unfold resize. rewrite (proj2 (Z.ltb_ge _ _) R), (proj2 (Z.ltb_ge _ _) C), (proj2 (Z.ltb_lt _ _) S). reflexivity. Qed.

(** a matrix m of type t, loaded as type u into an object x, with anything following it in the archive *)
Lemma load_saved {A} (t u : mtype) (m x : matrix A) ar : of_type t m -> of_type u x ->
  load u x (save m ++ ar) =
    match ty_rows u, ty_cols u with
    | Some a, Some b => if (rows m =? a) && (cols m =? b) then Ok (m, ar) else SizeError
    | None, Some b => if cols m =? b then Ok (m, ar) else SizeError
    | Some a, None => if rows m =? a then (if (0 <? rows m) && (0 <? cols m) then Ok (m, ar) else UB) else SizeError
    | None, None => Ok (m, ar)
    end.
Proof.
  intros T X. assert (E0 : (0 <? rows m) && (0 <? cols m) = false -> Mx (rows m) (cols m) [] = m). { intros E. assert (D : data m = []) by (apply (data_empty t); auto; destruct (Z.eq_dec (rows m) 0), (Z.eq_dec (cols m) 0); unfold empty; auto; apply andb_false_iff in E; rewrite !Z.ltb_ge in E; destruct T as (_ & _ & ? & ? & _); lia). destruct m; cbn in *; congruence. }
  unfold load, save. destruct (ty_rows u) as [a|] eqn:Ea, (ty_cols u) as [b|] eqn:Eb; cbn [app].
  - unfold load_fixed. cbn [read_index bind]. destruct (Z.eqb_spec (rows m) a) as [Ra|]; auto. destruct (Z.eqb_spec (cols m) b) as [Cb|]; auto. cbn [negb andb]. destruct ((0 <? rows m) && (0 <? cols m)) eqn:P.
    + subst a b. apply (read_data_saved t); auto. apply (pos_of t); auto.
    + cbn [app]. do 2 f_equal. rewrite <- (E0 eq_refl). assert (D : data x = []). { apply (data_empty u); auto. destruct X as (X1 & X2 & X3 & X4 & _). rewrite Ea in X1. rewrite Eb in X2. cbn in X1, X2. unfold empty. apply andb_false_iff in P. rewrite !Z.ltb_ge in P. lia. } destruct X as (X1 & X2 & _). rewrite Ea in X1. rewrite Eb in X2. cbn in X1, X2. destruct x; cbn in *; congruence.
  - unfold load_dyn_cols. cbn [read_index bind]. destruct (Z.eqb_spec (rows m) a) as [Ra|]; auto. subst a. cbn [negb]. rewrite (resize_ok t) by auto. cbn [bind]. destruct ((0 <? rows m) && (0 <? cols m)) eqn:P.
    + apply (read_data_saved t); auto. apply (pos_of t); auto.
    + unfold read_data, addr00. rewrite P. reflexivity.
  - unfold load_dyn_rows. cbn [read_index bind]. destruct (Z.eqb_spec (cols m) b) as [Cb|]; auto. subst b. cbn [negb]. rewrite (resize_ok t) by auto. cbn [bind]. destruct ((0 <? rows m) && (0 <? cols m)) eqn:P.
    + apply (read_data_saved t); auto. apply (pos_of t); auto.
    + cbn [app]. rewrite E0; auto.
  - unfold load_dyn. cbn [read_index bind]. rewrite (resize_ok t) by auto. cbn [bind]. destruct ((0 <? rows m) && (0 <? cols m)) eqn:P.
    + apply (read_data_saved t); auto. apply (pos_of t); auto.
    + cbn [app]. rewrite E0; auto.
Qed.

(** ** C86 *)
(** saved and loaded into an object of the same type: the matrix and the rest of the archive are restored, unless the row-vector overload
    gets a matrix without elements *)
Theorem serialization_roundtrip_partial {A} (t : mtype) (m x : matrix A) ar : of_type t m -> of_type t x -> ~ (wide t /\ empty m) -> load t x (save m ++ ar) = Ok (m, ar).
Proof.
  intros T X W. rewrite (load_saved t) by auto. destruct T as (R & C & R0 & C0 & S & L). destruct (ty_rows t) as [a|] eqn:Ea, (ty_cols t) as [b|] eqn:Eb; cbn in R, C.
  - rewrite R, C, !Z.eqb_refl. auto.
  - rewrite R, Z.eqb_refl. replace ((0 <? a) && (0 <? cols m)) with true; auto. symmetry. apply andb_true_iff. rewrite !Z.ltb_lt. assert (~ empty m) by (intros E; apply W; split; auto; split; congruence). unfold empty in *. lia.
  - rewrite C, Z.eqb_refl. auto.
  - auto.
Qed.
(** ... and in exactly that case &M(0,0) of an empty matrix is evaluated *)
Theorem serialization_empty_exact {A} (t : mtype) (m x : matrix A) ar : of_type t m -> of_type t x -> (load t x (save m ++ ar) = UB <-> wide t /\ empty m).
Proof.
  intros T X. split.
  - intros E. rewrite (load_saved t) in E by auto. pose proof (pos_of t m T) as P. destruct (ty_rows t) as [a|] eqn:Ea, (ty_cols t) as [b|] eqn:Eb.
    + destruct ((rows m =? a) && (cols m =? b)); discriminate.
    + destruct (rows m =? a); try discriminate. destruct ((0 <? rows m) && (0 <? cols m)) eqn:Q; try discriminate. split. split; congruence. unfold empty in *. destruct (Z.eq_dec (rows m) 0), (Z.eq_dec (cols m) 0); auto. exfalso. assert (false = true) by (apply P; lia). discriminate.
    + destruct (cols m =? b); discriminate.
    + discriminate.
  - intros [[Wr Wc] E]. rewrite (load_saved t) by auto. destruct T as (R & _ & R0 & C0 & _). destruct (ty_rows t) as [a|] eqn:Ea; [|congruence]. rewrite Wc. cbn in R. rewrite R, Z.eqb_refl. replace ((0 <? a) && (0 <? cols m)) with false; auto. symmetry. apply andb_false_iff. rewrite !Z.ltb_ge. unfold empty in E. lia.
Qed.
(** a 3 x Dynamic matrix without columns *)
Theorem serialization_roundtrip_refuted : exists (t : mtype) (m x : matrix Z), of_type t m /\ of_type t x /\ load t x (save m) = UB.
Proof. exists (MT (Some 3) None false), (Mx 3 0 []), (Mx 3 1 [7; 8; 9]). unfold of_type. cbn. repeat split; auto; lia. Qed.
(** the wrong size for a fixed dimension is refused, with nothing read or written *)
Theorem serialization_wrong_size {A} (t u : mtype) (m x : matrix A) ar : of_type t m -> of_type u x -> (dim_ok (ty_rows u) (rows m) /\ dim_ok (ty_cols u) (cols m) -> False) -> load u x (save m ++ ar) = SizeError.
Proof.
  intros T X N. rewrite (load_saved t) by auto. destruct (ty_rows u) as [a|], (ty_cols u) as [b|]; cbn in N.
  - destruct (Z.eqb_spec (rows m) a), (Z.eqb_spec (cols m) b); cbn; auto. tauto.
  - destruct (Z.eqb_spec (rows m) a); auto. tauto.
  - destruct (Z.eqb_spec (cols m) b); auto. tauto.
  - tauto.
Qed.
(** any archive, also a damaged one: an object loaded into a fixed dimension keeps that dimension *)
Theorem serialization_keeps_type {A} (u : mtype) (x y : matrix A) ar ar' : of_type u x -> load u x ar = Ok (y, ar') -> of_type u y.
Proof.
  intros X. unfold load. destruct (ty_rows u) as [a|] eqn:Ea, (ty_cols u) as [b|] eqn:Eb; unfold load_fixed, load_dyn_cols, load_dyn_rows, load_dyn; destruct ar as [|[r|] [|[c|] ar]]; cbn [read_index bind]; try discriminate.
  - destruct (Z.eqb_spec r a) as [->|], (Z.eqb_spec c b) as [->|]; try discriminate; cbn [negb]. destruct ((0 <? a) && (0 <? b)) eqn:P. 2: intros E; inversion E; subst; auto. unfold read_data, addr00. rewrite P. cbn [bind]. destruct (read_array A (Z.to_nat (a * b)) ar) as [[l r]| | | |] eqn:Q; try discriminate. apply read_array_inv in Q. intros E; inversion E; subst. apply andb_true_iff in P. rewrite !Z.ltb_lt in P. destruct X as (X1 & X2 & _ & _ & X3 & _). rewrite Ea in X1. rewrite Eb in X2. cbn in X1, X2. unfold of_type. rewrite Ea, Eb. cbn. repeat split; try lia.
  - destruct (Z.eqb_spec r a) as [->|]; try discriminate; cbn [negb]. unfold resize. destruct ((a <? 0) || (c <? 0)) eqn:Q1; try discriminate. destruct (Z.ltb_spec (a * c) (2 ^ 63)); try discriminate. cbn [bind]. unfold read_data, addr00. destruct ((0 <? a) && (0 <? c)) eqn:P; try discriminate. cbn [bind]. destruct (read_array A (Z.to_nat (a * c)) ar) as [[l r]| | | |] eqn:Q; try discriminate. apply read_array_inv in Q. intros E; inversion E; subst. apply andb_true_iff in P. rewrite !Z.ltb_lt in P. unfold of_type. rewrite Ea, Eb. cbn [rows cols data dim_ok]. repeat split; try lia.
  - destruct (Z.eqb_spec c b) as [->|]; try discriminate; cbn [negb]. unfold resize. destruct ((r <? 0) || (b <? 0)) eqn:Q1; try discriminate. apply orb_false_iff in Q1. rewrite !Z.ltb_ge in Q1. destruct (Z.ltb_spec (r * b) (2 ^ 63)); try discriminate. cbn [bind]. destruct ((0 <? r) && (0 <? b)) eqn:P.
    + unfold read_data, addr00. rewrite P. cbn [bind]. destruct (read_array A (Z.to_nat (r * b)) ar) as [[l r']| | | |] eqn:Q; try discriminate. apply read_array_inv in Q. intros E; inversion E; subst. unfold of_type. rewrite Ea, Eb. cbn [rows cols data dim_ok]. repeat split; try lia.
    + intros E; inversion E; subst. apply andb_false_iff in P. rewrite !Z.ltb_ge in P. unfold of_type. rewrite Ea, Eb. cbn [rows cols data dim_ok length]. repeat split; try lia.
  - unfold resize. destruct ((r <? 0) || (c <? 0)) eqn:Q1; try discriminate. apply orb_false_iff in Q1. rewrite !Z.ltb_ge in Q1. destruct (Z.ltb_spec (r * c) (2 ^ 63)); try discriminate. cbn [bind]. destruct ((0 <? r) && (0 <? c)) eqn:P.
    + unfold read_data, addr00. rewrite P. cbn [bind]. destruct (read_array A (Z.to_nat (r * c)) ar) as [[l r']| | | |] eqn:Q; try discriminate. apply read_array_inv in Q. intros E; inversion E; subst. unfold of_type. rewrite Ea, Eb. cbn [rows cols data dim_ok]. repeat split; try lia.
    + intros E; inversion E; subst. apply andb_false_iff in P. rewrite !Z.ltb_ge in P. unfold of_type. rewrite Ea, Eb. cbn [rows cols data dim_ok length]. repeat split; try lia.
Qed.
(** an archive that ends anywhere inside the matrix: no matrix is returned *)
Theorem serialization_truncated {A} (t u : mtype) (m x : matrix A) ar : of_type t m -> of_type u x -> (exists cut, cut <> [] /\ save m = ar ++ cut) -> forall r, load u x ar <> Ok r.
Proof.
  intros T X (cut & N & S) r E. destruct r as [y ar']. pose proof (load_saved t u m x [] T X) as F. rewrite app_nil_r, S in F.
  (* reading ar succeeded: reading ar ++ cut succeeds with the cut left over *)
  assert (Ext : load u x (ar ++ cut) = Ok (y, ar' ++ cut)).
  { clear F S N T. revert E. assert (RA : forall n a (l : list A) b, read_array A n a = Ok (l, b) -> read_array A n (a ++ cut) = Ok (l, b ++ cut)). { intros n a l b Q. apply read_array_inv in Q. destruct Q as [-> <-]. rewrite <- app_assoc. apply read_array_app. }
    assert (RD : forall p q a z b, read_data A p q a = Ok (z, b) -> read_data A p q (a ++ cut) = Ok (z, b ++ cut)). { intros p q a z b. unfold read_data. destruct (addr00 p q); cbn [bind]; try discriminate. destruct (read_array A (Z.to_nat (p * q)) a) as [[l d]| | | |] eqn:Q; cbn [bind]; try discriminate. rewrite (RA _ _ _ _ Q). cbn [bind]. intros H; inversion H; auto. }
    unfold load. destruct (ty_rows u) as [a|], (ty_cols u) as [b|]; unfold load_fixed, load_dyn_cols, load_dyn_rows, load_dyn; destruct ar as [|[p|] [|[q|] ar]]; cbn [read_index bind app]; try discriminate.
    - destruct (negb (p =? a)), (negb (q =? b)); try discriminate. destruct ((0 <? p) && (0 <? q)); auto. intros H; inversion H; auto.
    - destruct (negb (p =? a)); try discriminate. destruct (resize a q); cbn [bind]; try discriminate. auto.
    - destruct (negb (q =? b)); try discriminate. destruct (resize p b); cbn [bind]; try discriminate. destruct ((0 <? p) && (0 <? q)); auto. intros H; inversion H; auto.
    - destruct (resize p q); cbn [bind]; try discriminate. destruct ((0 <? p) && (0 <? q)); auto. intros H; inversion H; auto. }
  rewrite Ext in F. assert (K : ar' ++ cut <> []) by (intros K; apply app_eq_nil in K; tauto).
  destruct (ty_rows u) as [a|], (ty_cols u) as [b|]; repeat match type of F with context [if ?c then _ else _] => destruct c end; inversion F; congruence.
Qed.
(** another type: the shape fits and the storage order is the same, so every element is the same; with different storage orders the elements
    are permuted *)
Theorem serialization_other_type_partial {A} (t u : mtype) (m x : matrix A) ar : of_type t m -> of_type u x -> dim_ok (ty_rows u) (rows m) -> dim_ok (ty_cols u) (cols m) -> row_major t = row_major u -> ~ (wide u /\ empty m) ->
  exists y, load u x (save m ++ ar) = Ok (y, ar) /\ same_elems t u m y.
Proof.
  intros T X R C O W. exists m. split.
  - rewrite (load_saved t) by auto. destruct T as (_ & _ & R0 & C0 & S & L). destruct (ty_rows u) as [a|] eqn:Ea, (ty_cols u) as [b|] eqn:Eb; cbn in R, C.
    + rewrite R, C, !Z.eqb_refl. auto.
    + rewrite R, Z.eqb_refl. replace ((0 <? a) && (0 <? cols m)) with true; auto. symmetry. apply andb_true_iff. rewrite !Z.ltb_lt. assert (~ empty m) by (intros E; apply W; split; auto; split; congruence). unfold empty in *. lia.
    + rewrite C, Z.eqb_refl. auto.
    + auto.
  - split; [|split]; auto. intros i j. unfold elem. rewrite O. auto.
Qed.
Theorem serialization_other_type_refuted : exists (t u : mtype) (m x y : matrix Z), of_type t m /\ of_type u x /\ load u x (save m) = Ok (y, []) /\ elem t m 0 1 <> elem u y 0 1.
Proof. exists (MT (Some 2) (Some 2) true), (MT (Some 2) (Some 2) false), (Mx 2 2 [1; 2; 3; 4]), (Mx 2 2 [0; 0; 0; 0]), (Mx 2 2 [1; 2; 3; 4]). unfold of_type. cbn. repeat split; auto; try lia. discriminate. Qed.
(** every element of a saved matrix is addressable and comes back *)
Theorem elem_defined {A} (t : mtype) (m : matrix A) i j : of_type t m -> (0 <= i < rows m /\ 0 <= j < cols m <-> elem t m i j <> None).
Proof.
  intros (_ & _ & R & C & _ & L). unfold elem. destruct ((0 <=? i) && (i <? rows m) && (0 <=? j) && (j <? cols m)) eqn:E.
  - rewrite !andb_true_iff, !Z.leb_le, !Z.ltb_lt in E. split; [|lia]. intros _. apply nth_error_Some. destruct (row_major t); nia.
  - split; [|congruence]. intros H. exfalso. rewrite !andb_false_iff, !Z.leb_gt, !Z.ltb_ge in E. lia.
Qed.
(** several matrices in one archive *)
Fixpoint load_all {A} (t : mtype) (x : matrix A) (n : nat) (ar : list (item A)) : res (list (matrix A)) :=
  match n with O => Ok [] | S k => bind (load t x ar) (fun '(m, ar') => bind (load_all t x k ar') (fun l => Ok (m :: l))) end.
Theorem serialization_sequence {A} (t : mtype) (x : matrix A) ms : of_type t x -> ~ wide t -> Forall (of_type t) ms -> load_all t x (length ms) (flat_map save ms) = Ok ms.
Proof. intros X W. induction ms as [|m ms IH]; intros F; auto. inversion F; subst. cbn [length load_all flat_map]. rewrite (serialization_roundtrip_partial t) by tauto. cbn [bind]. rewrite IH by auto. reflexivity. Qed.
Example ex_matrix : let t := MT None (Some 2) true in of_type t (Mx 3 2 [1; 2; 3; 4; 5; 6]) /\ of_type t (Mx 0 2 ([] : list Z)) /\ ~ wide t /\ elem t (Mx 3 2 [1; 2; 3; 4; 5; 6]) 2 0 = Some 5.
Proof. unfold of_type, wide. cbn. repeat split; auto; try lia. intros [H _]. congruence. Qed.
