(** C101: serialization of cv::Mat and cv::KeyPoint. *)
From Verif Require Import CvMat_Model.

(** ** specification *)
(** byte k of row r, as m.ptr(r)[k] *)
Definition byte_at (m : memory) (h : header) (r k : nat) : option Z :=
  match hbuf h with None => None | Some b => match nth_error m b with None => None | Some l => nth_error l (hoff h + r * hstep h + k) end end.
(** the same shape, type and elements *)
Definition same_image (m : memory) (h : header) (m' : memory) (h' : header) : Prop :=
  hrows h' = hrows h /\ hcols h' = hcols h /\ htype h' = htype h /\
  forall r k, r < hrows h -> k < hcols h * esize (htype h) -> exists x, byte_at m h r k = Some x /\ byte_at m' h' r k = Some x.
(** a header over memory it may use *)
Definition valid (m : memory) (h : header) : Prop :=
  (0 <= htype h < 4096)%Z /\ rowlen h <= hstep h /\ (hcont h = true -> hrows h <= 1 \/ hstep h = rowlen h) /\
  (hrows h = 0 \/ hcols h = 0 \/ exists b l, hbuf h = Some b /\ nth_error m b = Some l /\ hoff h + (hrows h - 1) * hstep h + rowlen h <= length l).
(** rows follow each other without a gap, the step of the last one included *)
Definition packed (h : header) : Prop := hrows h = 0 \/ hstep h = rowlen h.
Definition same_shape (h g : header) : Prop := hrows h = hrows g /\ hcols h = hcols g /\ htype h = htype g.

(** ** lemmas *)
Lemma depth_size_pos d : 0 < depth_size d.
Proof. unfold depth_size. destruct (d <? 2)%Z, (d <? 4)%Z, (d <? 6)%Z; lia. Qed.
Lemma esize_pos ty : 0 < esize ty.
Proof. unfold esize. pose proof (depth_size_pos (Z.land ty 7)). nia. Qed.
Lemma nth_error_slice l o n k : k < n -> nth_error (slice l o n) k = nth_error l (o + k).
Proof.
  unfold slice. intros H. revert l. induction o as [|o IH]; intros l; cbn [skipn Nat.add].
  - revert l k H. induction n as [|n IH]; intros l k H; [lia|]. destruct l, k; cbn; auto. apply IH. lia.
  - destruct l; cbn [nth_error]; [rewrite firstn_nil; destruct k; auto|apply IH].
Qed.
Lemma slice_length l o n : o + n <= length l -> length (slice l o n) = n.
Proof. intros H. unfold slice. rewrite firstn_length, skipn_length. lia. Qed.
Lemma read_mem_ok m b l o n : nth_error m b = Some l -> o + n <= length l -> read_mem m (Some b) o n = Ok (slice l o n).
Proof. intros E H. unfold read_mem. destruct (Nat.eqb_spec n 0) as [->|]; [destruct (skipn o l) eqn:Q; unfold slice; rewrite Q; auto|]. rewrite E. destruct (Nat.leb_spec (o + n) (length l)); auto. lia. Qed.
Lemma read_bytes_app bs ar : read_bytes (length bs) (map IByte bs ++ ar) = Ok (bs, ar).
Proof. induction bs as [|b bs IH]; cbn; auto. rewrite IH. auto. Qed.
Lemma rows_from_ok m b l o step len n : nth_error m b = Some l -> len <= step -> n = 0 \/ o + (n - 1) * step + len <= length l ->
  exists bs, rows_from m (Some b) o step len n = Ok bs /\ length bs = n * len /\ forall r k, r < n -> k < len -> nth_error bs (r * len + k) = nth_error l (o + r * step + k).
Proof.
  intros E L. revert o. induction n as [|n IH]; intros o H; cbn [rows_from].
  - exists []. split; auto. split; auto. intros; lia.
  - rewrite (read_mem_ok m b l) by (auto; destruct n; nia). cbn [bind].
    destruct (IH (o + step)) as (bs & -> & SB & N). { destruct n; [auto|right; nia]. }
    cbn [bind]. eexists. split; [reflexivity|]. assert (SL : length (slice l o len) = len) by (apply slice_length; destruct n; nia).
    split. { rewrite app_length, SL, SB. lia. }
    intros r k Hr Hk. destruct r as [|r].
    + rewrite nth_error_app1 by (rewrite SL; lia). rewrite nth_error_slice by lia. f_equal. lia.
    + rewrite nth_error_app2 by (rewrite SL; nia). rewrite SL. replace (S r * len + k - len) with (r * len + k) by nia. rewrite N by lia. f_equal. nia.
Qed.
Lemma nth_error_overwrite l o bs k : o + length bs <= length l -> k < length bs -> nth_error (overwrite l o bs) (o + k) = nth_error bs k.
Proof.
  intros H K. unfold overwrite. assert (F : length (firstn o l) = o) by (rewrite firstn_length; lia).
  rewrite nth_error_app2 by lia. rewrite F. replace (o + k - o) with k by lia. apply nth_error_app1. auto.
Qed.
Lemma nth_error_overwrite_out l o bs k : o + length bs <= length l -> k < o \/ o + length bs <= k -> nth_error (overwrite l o bs) k = nth_error l k.
Proof.
  intros H K. unfold overwrite. assert (F : length (firstn o l) = o) by (rewrite firstn_length; lia). destruct K as [K|K].
  - rewrite nth_error_app1 by lia. rewrite <- (firstn_skipn o l) at 2. rewrite nth_error_app1 by lia. auto.
  - rewrite nth_error_app2, nth_error_app2 by lia. rewrite F. rewrite <- (firstn_skipn (o + length bs) l) at 2. assert (F2 : length (firstn (o + length bs) l) = o + length bs) by (rewrite firstn_length; lia).
    rewrite nth_error_app2 by lia. rewrite F2. f_equal. lia.
Qed.
Lemma overwrite_length l o bs : o + length bs <= length l -> length (overwrite l o bs) = length l.
Proof. intros H. unfold overwrite. rewrite !app_length, firstn_length, skipn_length. lia. Qed.
Lemma nth_update m b l : b < length m -> nth_error (update m b l) b = Some l.
Proof. revert b. induction m as [|x m IH]; intros b H; cbn in *; [lia|]. destruct b; cbn; auto. apply IH. lia. Qed.
Lemma nth_update_other m b l c : c <> b -> nth_error (update m b l) c = nth_error m c.
Proof. revert b c. induction m as [|x m IH]; intros b c H; destruct b, c; cbn; auto; try lia. Qed.
Lemma update_length m b l : length (update m b l) = length m.
Proof. revert b. induction m as [|x m IH]; intros b; destruct b; cbn; auto. Qed.

(** ** the operations give valid headers *)
Lemma land_type ty : (0 <= ty < 4096)%Z -> Z.land ty 4095 = ty.
Proof. intros H. change 4095%Z with (Z.ones 12). rewrite Z.land_ones by lia. apply Z.mod_small. lia. Qed.
Lemma land_range ty : (0 <= Z.land ty 4095 < 4096)%Z.
Proof. change 4095%Z with (Z.ones 12). rewrite Z.land_ones by lia. apply Z.mod_pos_bound. lia. Qed.
Theorem empty_valid m : valid m empty_mat.
Proof. unfold valid, empty_mat. cbn. repeat split; try lia; auto. Qed.
Theorem create_valid m h r c ty fill : valid m h -> let '(m1, h1) := create m h r c ty fill in
  valid m1 h1 /\ hrows h1 = r /\ hcols h1 = c /\ htype h1 = Z.land ty 4095 /\ (forall b l, nth_error m b = Some l -> nth_error m1 b = Some l).
Proof.
  intros V. unfold create. pose proof (land_range ty) as LR. set (t := Z.land ty 4095) in *.
  destruct (Nat.eqb_spec (hrows h) r), (Nat.eqb_spec (hcols h) c), (Z.eqb_spec (htype h) t); cbn [andb];
    try (destruct (hbuf h); [repeat split; auto; apply V|]);
    (destruct (Nat.eqb_spec (r * c) 0) as [Z|NZ]; [unfold valid, rowlen; cbn; split; [split; [lia|split; [lia|split; [auto|destruct r; auto; right; left; nia]]]|auto]|]);
    (unfold valid, rowlen; cbn [hrows hcols htype hbuf hoff hstep hcont]; split; [split; [lia|split; [lia|split; [auto|right; right; exists (length m); eexists; split; [reflexivity|split; [rewrite nth_error_app2, Nat.sub_diag by lia; reflexivity|rewrite map_length, seq_length; destruct r; nia]]]]]|];
     split; [auto|split; [auto|split; [auto|]]]; intros b l Hb; rewrite nth_error_app1; auto; apply nth_error_Some; congruence).
Qed.
Theorem region_valid m p y x h w : valid m p -> y + h <= hrows p -> x + w <= hcols p -> valid m (region p y x h w).
Proof.
  intros (T & ST & C & B) Hy Hx. unfold valid, region, rowlen in *. cbn [hrows hcols htype hbuf hoff hstep hcont]. pose proof (esize_pos (htype p)) as EP.
  split; [auto|]. split; [nia|]. split.
  - intros H. apply orb_true_iff in H. destruct H as [H|H]. { apply Nat.eqb_eq in H. lia. } apply andb_true_iff in H. destruct H as [H1 H2]. apply Nat.leb_le in H1. destruct (C H2) as [D|D]; [lia|]. right. replace w with (hcols p) by lia. auto.
  - destruct h as [|h]; [auto|]. destruct w as [|w]; [auto|]. right. right. destruct B as [B|[B|(b & l & B1 & B2 & B3)]]; [lia|lia|]. exists b, l. split; auto. split; auto.
    replace (S h - 1) with h by lia. assert (y * hstep p + h * hstep p <= (hrows p - 1) * hstep p) by (rewrite <- Nat.mul_add_distr_r; apply Nat.mul_le_mono_r; lia). nia.
Qed.

(** ** what is written *)
Lemma save_spec m h : valid m h -> (hcont h = true -> packed h) ->
  exists bs, save m h = Ok ([INum (Z.of_nat (hrows h)); INum (Z.of_nat (hcols h)); INum (htype h)] ++ map IByte bs) /\ length bs = hrows h * rowlen h /\
    forall r k, r < hrows h -> k < rowlen h -> nth_error bs (r * rowlen h + k) = byte_at m h r k /\ byte_at m h r k <> None.
Proof.
  intros (T & ST & C & B) P. unfold save. assert (RC : rowlen h = hcols h * esize (htype h)) by auto.
  assert (Empty : hrows h * rowlen h = 0 -> (exists b l, hbuf h = Some b /\ nth_error m b = Some l /\ hoff h + (hrows h - 1) * hstep h + rowlen h <= length l) \/ True -> forall r k, r < hrows h -> k < rowlen h -> nth_error ([] : list Z) (r * rowlen h + k) = byte_at m h r k /\ byte_at m h r k <> None) by (intros Z _ r k Hr Hk; exfalso; nia).
  assert (D : hrows h * rowlen h = 0 \/ exists b l, hbuf h = Some b /\ nth_error m b = Some l /\ hoff h + (hrows h - 1) * hstep h + rowlen h <= length l).
  { destruct B as [B|[B|B]]; [left; rewrite B; auto|left; rewrite RC, B; lia|auto]. }
  destruct (hcont h) eqn:HC.
  - destruct (P eq_refl) as [R0|E].
    + rewrite R0, Nat.mul_0_r. unfold read_mem. cbn [Nat.eqb bind]. exists []. split; auto. split; auto. intros; lia.
    + destruct D as [Z|(b & l & B1 & B2 & B3)].
      * rewrite E, Nat.mul_comm, Z. cbn [read_mem Nat.eqb bind]. exists []. split; auto.
      * rewrite B1. assert (L : hoff h + hstep h * hrows h <= length l \/ hstep h * hrows h = 0). { destruct (hrows h); [right; lia|left; nia]. }
        destruct L as [L|L].
        -- rewrite (read_mem_ok m b l) by auto. cbn [bind]. exists (slice l (hoff h) (hstep h * hrows h)). split; auto. split. { rewrite slice_length by auto. rewrite E. lia. }
           intros r k Hr Hk. rewrite nth_error_slice by (rewrite E; nia). unfold byte_at. rewrite B1, B2. replace (hoff h + (r * rowlen h + k)) with (hoff h + r * hstep h + k) by (rewrite E; lia). split; auto. apply nth_error_Some. assert (S r * hstep h <= hstep h * hrows h) by nia. nia.
        -- rewrite L. cbn [read_mem Nat.eqb bind]. exists []. split; auto. assert (hrows h * rowlen h = 0) by nia. split; auto.
  - unfold clone_bytes. destruct (Nat.eqb_spec (hrows h * hcols h) 0) as [Z|NZ].
    + cbn [bind]. exists []. assert (hrows h * rowlen h = 0) by (rewrite RC; nia). auto.
    + destruct D as [Z|(b & l & B1 & B2 & B3)]. { exfalso. rewrite RC in Z. pose proof (esize_pos (htype h)). nia. }
      rewrite B1. destruct (rows_from_ok m b l (hoff h) (hstep h) (rowlen h) (hrows h) B2 ST (or_intror B3)) as (bs & -> & L & N). cbn [bind]. exists bs. split; auto. split; auto.
      intros r k Hr Hk. unfold byte_at. rewrite B1, B2, N by auto. split; auto. apply nth_error_Some. assert (r * hstep h <= (hrows h - 1) * hstep h) by (apply Nat.mul_le_mono_r; lia). lia.
Qed.
Lemma write_ok m b l o bs : nth_error m b = Some l -> o + length bs <= length l -> 
  exists m2, write_mem m (Some b) o bs = Ok m2 /\ (length bs <> 0 -> nth_error m2 b = Some (overwrite l o bs)) /\ (length bs = 0 -> m2 = m) /\ (forall c, c <> b -> nth_error m2 c = nth_error m c).
Proof.
  intros E H. unfold write_mem. destruct (Nat.eqb_spec (length bs) 0) as [Z|NZ]. { exists m. tauto. }
  rewrite E. destruct (Nat.leb_spec (o + length bs) (length l)); [|lia]. eexists. split; [reflexivity|]. split. { intros _. apply nth_update. apply nth_error_Some. congruence. } split; [tauto|]. intros c N. apply nth_update_other. auto.
Qed.
(** what load does with the bytes of an image, whatever follows *)
Lemma load_spec m g fill r c ty bs rest : valid m g -> (0 <= ty < 4096)%Z -> length bs = r * (c * esize ty) ->
  (hrows g = r -> hcols g = c -> htype g = ty -> hbuf g <> None -> packed g) ->
  exists m2 g2, load m g fill ([INum (Z.of_nat r); INum (Z.of_nat c); INum ty] ++ map IByte bs ++ rest) = Ok (m2, g2, rest) /\ valid m2 g2 /\ packed g2 /\
    hrows g2 = r /\ hcols g2 = c /\ htype g2 = ty /\ (forall i k, i < r -> k < c * esize ty -> byte_at m2 g2 i k = nth_error bs (i * (c * esize ty) + k)) /\
    ((hbuf g2 = hbuf g /\ g2 = g) \/ hbuf g2 = None \/ exists b, hbuf g2 = Some b /\ nth_error m b = None) /\
    (forall b, b < length m -> hbuf g2 <> Some b -> nth_error m2 b = nth_error m b) /\
    (forall b l k, hbuf g2 = Some b -> nth_error m b = Some l -> k < hoff g2 \/ hoff g2 + r * (c * esize ty) <= k -> exists l2, nth_error m2 b = Some l2 /\ length l2 = length l /\ nth_error l2 k = nth_error l k).
Proof.
  intros V T L PK. unfold load. cbn [app read_num bind]. destruct (Z.ltb_spec (Z.of_nat r) 0) as [?|_]; [lia|]. destruct (Z.ltb_spec (Z.of_nat c) 0) as [?|_]; [lia|]. cbn [orb]. rewrite !Nat2Z.id.
  unfold create. rewrite land_type by auto.
  assert (Keep : forall (E1 : hrows g = r) (E2 : hcols g = c) (E3 : htype g = ty) b0 (E4 : hbuf g = Some b0),
    exists m2 g2, bind (read_bytes (hstep g * hrows g) (map IByte bs ++ rest)) (fun '(bytes, ar) => bind (write_mem m (hbuf g) (hoff g) bytes) (fun m2 => Ok (m2, g, ar))) = Ok (m2, g2, rest) /\ valid m2 g2 /\ packed g2 /\
    hrows g2 = r /\ hcols g2 = c /\ htype g2 = ty /\ (forall i k, i < r -> k < c * esize ty -> byte_at m2 g2 i k = nth_error bs (i * (c * esize ty) + k)) /\
    ((hbuf g2 = hbuf g /\ g2 = g) \/ hbuf g2 = None \/ exists b, hbuf g2 = Some b /\ nth_error m b = None) /\
    (forall b, b < length m -> hbuf g2 <> Some b -> nth_error m2 b = nth_error m b) /\
    (forall b l k, hbuf g2 = Some b -> nth_error m b = Some l -> k < hoff g2 \/ hoff g2 + r * (c * esize ty) <= k -> exists l2, nth_error m2 b = Some l2 /\ length l2 = length l /\ nth_error l2 k = nth_error l k)).
  { intros E1 E2 E3 b0 E4. assert (P : packed g) by (apply PK; auto; congruence). assert (RL : rowlen g = c * esize ty) by (unfold rowlen; congruence).
    assert (SZ : hstep g * hrows g = length bs). { destruct P as [P|P]; [rewrite L, <- E1, P; lia|rewrite P, RL, L, E1; lia]. }
    rewrite SZ, read_bytes_app. cbn [bind]. rewrite E4.
    destruct (Nat.eq_dec (length bs) 0) as [Z|NZ].
    - unfold write_mem. rewrite Z. cbn [Nat.eqb bind]. exists m, g. split; [auto|]. split; [auto|]. split; [auto|]. split; [auto|]. split; [auto|]. split; [auto|].
      split. { intros i k Hi Hk. exfalso. nia. } split; [left; auto|]. split; [auto|]. intros b l k _ N _. exists l. auto.
    - destruct V as (VT & VS & VC & VB). destruct VB as [VB|[VB|(b & l & B1 & B2 & B3)]]; [exfalso; rewrite L, <- E1, VB in NZ; lia|exfalso; rewrite L, <- E2, VB in NZ; lia|].
      assert (b = b0) by congruence; subst b0. assert (EP : hstep g = rowlen g) by (destruct P; [exfalso; nia|auto]).
      assert (LB : hoff g + length bs <= length l). { rewrite <- SZ. destruct (hrows g); [lia|]. rewrite EP in *. replace (S n - 1) with n in B3 by lia. nia. }
      destruct (write_ok m b l (hoff g) bs B2 LB) as (m2 & -> & W1 & _ & W2). cbn [bind]. exists m2, g. split; [auto|].
      split. { split; [auto|split; [auto|split; [auto|right; right; exists b, (overwrite l (hoff g) bs)]]]. split; auto. split; [auto|]. rewrite overwrite_length by auto. auto. }
      split; [auto|]. split; [auto|]. split; [auto|]. split; [auto|]. split.
      { intros i k Hi Hk. unfold byte_at. rewrite B1, W1 by auto. rewrite EP, RL. rewrite <- Nat.add_assoc. apply nth_error_overwrite; auto. rewrite L. nia. }
      split; [left; auto|]. split. { intros b' _ N. apply W2. intros ->. congruence. }
      intros b' l' k F N K. assert (b' = b) by congruence; subst b'. assert (l' = l) by congruence; subst l'. exists (overwrite l (hoff g) bs). split; [auto|]. split; [apply overwrite_length; auto|]. apply nth_error_overwrite_out; auto. rewrite L. auto. }
  assert (New : exists m2 g2, (let '(m1, h1) := if Nat.eqb (r * c) 0 then (m, Hd r c ty None 0 (c * esize ty) true) else (m ++ [map fill (seq 0 (r * (c * esize ty)))], Hd r c ty (Some (length m)) 0 (c * esize ty) true) in
     bind (read_bytes (hstep h1 * hrows h1) (map IByte bs ++ rest)) (fun '(bytes, ar) => bind (write_mem m1 (hbuf h1) (hoff h1) bytes) (fun m2 => Ok (m2, h1, ar)))) = Ok (m2, g2, rest) /\ valid m2 g2 /\ packed g2 /\
    hrows g2 = r /\ hcols g2 = c /\ htype g2 = ty /\ (forall i k, i < r -> k < c * esize ty -> byte_at m2 g2 i k = nth_error bs (i * (c * esize ty) + k)) /\
    ((hbuf g2 = hbuf g /\ g2 = g) \/ hbuf g2 = None \/ exists b, hbuf g2 = Some b /\ nth_error m b = None) /\
    (forall b, b < length m -> hbuf g2 <> Some b -> nth_error m2 b = nth_error m b) /\
    (forall b l k, hbuf g2 = Some b -> nth_error m b = Some l -> k < hoff g2 \/ hoff g2 + r * (c * esize ty) <= k -> exists l2, nth_error m2 b = Some l2 /\ length l2 = length l /\ nth_error l2 k = nth_error l k)).
  { destruct (Nat.eqb_spec (r * c) 0) as [Z|NZ]; cbn [hrows hcols htype hbuf hoff hstep hcont].
    - assert (L0 : length bs = 0) by (rewrite L; nia). assert (bs = []) by (destruct bs; auto; discriminate). subst bs. replace (c * esize ty * r) with 0 by nia. cbn [read_bytes bind map app write_mem Nat.eqb length].
      eexists _, _. split; [reflexivity|]. unfold packed, valid, rowlen. cbn [hrows hcols htype hbuf hoff hstep hcont]. split. { repeat split; try lia; destruct r; auto; right; left; nia. }
      split; [auto|]. split; [auto|]. split; [auto|]. split; [auto|]. split. { intros i k Hi Hk. exfalso. nia. } split; [auto|]. split; [auto|]. intros b l k F. discriminate.
    - assert (LE : c * esize ty * r = length bs) by lia. rewrite LE, read_bytes_app. cbn [bind].
      set (l0 := map fill (seq 0 (r * (c * esize ty)))). assert (L0 : length l0 = length bs) by (unfold l0; rewrite map_length, seq_length; lia).
      assert (NB : nth_error (m ++ [l0]) (length m) = Some l0) by (rewrite nth_error_app2, Nat.sub_diag by lia; auto).
      destruct (write_ok (m ++ [l0]) (length m) l0 0 bs NB ltac:(lia)) as (m2 & -> & W1 & _ & W2). cbn [bind]. assert (NZ2 : length bs <> 0) by (pose proof (esize_pos ty); rewrite L; nia).
      eexists _, _. split; [reflexivity|]. unfold packed, valid, rowlen. cbn [hrows hcols htype hbuf hoff hstep hcont].
      split. { repeat split; try lia. right. right. exists (length m). eexists. split; [reflexivity|]. split; [apply W1; auto|]. rewrite overwrite_length by lia. rewrite L0, L. destruct r; nia. }
      split; [auto|]. split; [auto|]. split; [auto|]. split; [auto|]. split.
      { intros i k Hi Hk. unfold byte_at. cbn [hbuf hoff hstep]. rewrite W1 by auto. cbn [Nat.add]. apply (nth_error_overwrite l0 0 bs); [lia|]. rewrite L. nia. }
      split. { right. right. exists (length m). split; auto. apply nth_error_None. auto. }
      split. { intros b Hb N. rewrite W2 by (intros ->; apply N; auto). apply nth_error_app1. auto. }
      intros b l k F N. injection F as <-. exfalso. assert (length m < length m) by (apply nth_error_Some; congruence). lia. }
  destruct (Nat.eqb_spec (hrows g) r) as [E1|]; [|exact New]. destruct (Nat.eqb_spec (hcols g) c) as [E2|]; [|exact New]. destruct (Z.eqb_spec (htype g) ty) as [E3|]; [|exact New]. cbn [andb].
  destruct (hbuf g) as [b0|] eqn:E4; [|exact New]. specialize (Keep E1 E2 E3 b0 eq_refl). rewrite E4. exact Keep.
Qed.

(** ** the properties *)
(** Every matrix, continuous or not, except a one-row region narrower than its parent, comes back: the same shape, type and elements, and
    what follows in the archive is next; the target is any matrix, except a region of the same shape narrower than its parent.  Nothing but the
    elements of the target changes in memory, and the target keeps its data pointer or gets data of its own. *)
Theorem mat_roundtrip_partial m h m' g fill : valid m h -> valid m' g -> (hrows h = 1 -> packed h) -> (same_shape h g -> hbuf g <> None -> packed g) ->
  exists ar, save m h = Ok ar /\ forall rest, exists m2 g2, load m' g fill (ar ++ rest) = Ok (m2, g2, rest) /\ valid m2 g2 /\ same_image m h m2 g2 /\
    (g2 = g \/ hbuf g2 = None \/ exists b, hbuf g2 = Some b /\ nth_error m' b = None) /\
    (forall b, b < length m' -> hbuf g2 <> Some b -> nth_error m2 b = nth_error m' b) /\
    (forall b l k, hbuf g2 = Some b -> nth_error m' b = Some l -> k < hoff g2 \/ hoff g2 + hrows h * rowlen h <= k -> exists l2, nth_error m2 b = Some l2 /\ length l2 = length l /\ nth_error l2 k = nth_error l k).
Proof.
  intros V V' PH PG. destruct (save_spec m h V) as (bs & E & L & N).
  { intros C. destruct V as (_ & _ & VC & _). destruct (VC C) as [H|H]; [|right; auto]. destruct (hrows h) as [|[|n]] eqn:R; [left; auto|apply PH; auto|lia]. }
  eexists. split; [exact E|]. intros rest. rewrite <- app_assoc.
  destruct (load_spec m' g fill (hrows h) (hcols h) (htype h) bs rest V' ltac:(apply V) L) as (m2 & g2 & E2 & V2 & _ & R & C & T & B & K & O1 & O2).
  { intros. apply PG; auto. unfold same_shape. auto. }
  exists m2, g2. split; [exact E2|]. split; [auto|]. split.
  - split; [auto|]. split; [auto|]. split; [auto|]. intros r k Hr Hk. destruct (N r k Hr Hk) as [N1 N2]. destruct (byte_at m h r k) as [x|] eqn:X; [|congruence]. exists x. split; auto. rewrite B by auto. exact N1.
  - split; [tauto|]. split; auto.
Qed.
(** A one-row region narrower than its parent: save reads the step of the parent, which may lie outside the data; if it does not, load leaves
    the excess bytes in front of whatever was written next *)
Theorem mat_row_region m h : valid m h -> hrows h = 1 -> ~ packed h -> hcont h = true -> 0 < hcols h ->
  (save m h = UB <-> forall b l, hbuf h = Some b -> nth_error m b = Some l -> length l < hoff h + hstep h) /\
  forall ar, save m h = Ok ar -> forall m' g fill rest, valid m' g -> (same_shape h g -> hbuf g <> None -> packed g) ->
    exists m2 g2 extra, load m' g fill (ar ++ rest) = Ok (m2, g2, map IByte extra ++ rest) /\ extra <> [] /\ same_image m h m2 g2.
Proof.
  intros V R1 NP C W. pose proof V as (T & SS & VC & VB). destruct VB as [?|[?|(b & l & B1 & B2 & B3)]]; [lia|lia|]. rewrite R1 in B3. unfold packed in NP. assert (ST : rowlen h < hstep h) by lia.
  assert (RD : read_mem m (hbuf h) (hoff h) (hstep h * hrows h) = if Nat.leb (hoff h + hstep h) (length l) then Ok (slice l (hoff h) (hstep h)) else UB).
  { rewrite R1, Nat.mul_1_r. unfold read_mem. destruct (Nat.eqb_spec (hstep h) 0); [lia|]. rewrite B1, B2. auto. }
  unfold save. rewrite C, RD. split.
  - destruct (Nat.leb_spec (hoff h + hstep h) (length l)) as [Q|Q]; cbn [bind].
    + split; [discriminate|]. intros F. specialize (F b l B1 B2). lia.
    + split; auto. intros _ b' l' F1 F2. assert (b' = b) by congruence; subst. assert (l' = l) by congruence; subst. auto.
  - destruct (Nat.leb_spec (hoff h + hstep h) (length l)) as [Q|Q]; cbn [bind]; [|discriminate]. intros ar E m' g fill rest V' PG. injection E as <-.
    set (s := slice l (hoff h) (hstep h)). assert (SL : length s = hstep h) by (apply slice_length; auto).
    assert (SP : s = firstn (rowlen h) s ++ skipn (rowlen h) s) by (rewrite firstn_skipn; auto).
    assert (FL : length (firstn (rowlen h) s) = hrows h * (hcols h * esize (htype h))) by (rewrite firstn_length, SL, R1; unfold rowlen in *; lia).
    destruct (load_spec m' g fill (hrows h) (hcols h) (htype h) (firstn (rowlen h) s) (map IByte (skipn (rowlen h) s) ++ rest) V' T FL) as (m2 & g2 & E2 & V2 & _ & R & CC & TT & B & _).
    { intros. apply PG; auto. unfold same_shape. auto. }
    exists m2, g2, (skipn (rowlen h) s). split.
    { rewrite <- E2. f_equal. change ([INum (Z.of_nat (hrows h)); INum (Z.of_nat (hcols h)); INum (htype h)] ++ map IByte s) with (INum (Z.of_nat (hrows h)) :: INum (Z.of_nat (hcols h)) :: INum (htype h) :: map IByte s). cbn [app]. do 3 f_equal. rewrite SP at 1. rewrite map_app, <- app_assoc. auto. }
    split. { intros F. assert (length (skipn (rowlen h) s) = 0) by (rewrite F; auto). rewrite skipn_length in *. lia. }
    split; [auto|]. split; [auto|]. split; [auto|]. intros r k Hr Hk. assert (r = 0) by lia. subst r. rewrite B by auto. cbn [Nat.mul Nat.add].
    assert (NE : nth_error (firstn (rowlen h) s) k = nth_error l (hoff h + k)). { change (firstn (rowlen h) s) with (slice s 0 (rowlen h)). rewrite nth_error_slice by auto. cbn [Nat.add]. unfold s. apply nth_error_slice. unfold rowlen in *. lia. }
    rewrite NE. unfold byte_at. rewrite B1, B2. replace (hoff h + 0 * hstep h + k) with (hoff h + k) by lia. destruct (nth_error l (hoff h + k)) as [x|] eqn:X; [eauto|]. exfalso. apply nth_error_None in X. unfold rowlen in *. lia.
Qed.
(** loading into a region of the same shape that is narrower than its parent asks the archive for more bytes than were written *)
Theorem mat_load_into_region m h m' g fill : valid m h -> (hrows h = 1 -> packed h) -> same_shape h g -> hbuf g <> None -> rowlen g < hstep g -> 0 < hrows g ->
  exists ar, save m h = Ok ar /\ load m' g fill ar = StreamError /\ forall z rest, load m' g fill (ar ++ INum z :: rest) = StreamError.
Proof.
  intros V PH (S1 & S2 & S3) B ST R0. destruct (save_spec m h V) as (bs & E & L & _).
  { intros C. destruct V as (_ & _ & VC & _). destruct (VC C) as [H|H]; [|right; auto]. destruct (hrows h) as [|[|n]] eqn:R; [left; auto|apply PH; auto|lia]. }
  eexists. split; [exact E|].
  assert (SH : forall n bs (tail : list item), length bs < n -> (tail = [] \/ exists z r, tail = INum z :: r) -> read_bytes n (map IByte bs ++ tail) = StreamError).
  { clear. induction n as [|n IH]; intros bs tail H T; [lia|]. destruct bs as [|b bs]; cbn [map app read_bytes].
    - destruct T as [->|(z & r & ->)]; auto.
    - rewrite IH; auto. cbn in H. lia. }
  assert (G : forall tail, (tail = [] \/ exists z r, tail = INum z :: r) -> load m' g fill (([INum (Z.of_nat (hrows h)); INum (Z.of_nat (hcols h)); INum (htype h)] ++ map IByte bs) ++ tail) = StreamError).
  { intros tail T. rewrite <- app_assoc. unfold load. cbn [app read_num bind]. destruct (Z.ltb_spec (Z.of_nat (hrows h)) 0) as [?|_]; [lia|]. destruct (Z.ltb_spec (Z.of_nat (hcols h)) 0) as [?|_]; [lia|]. cbn [orb]. rewrite !Nat2Z.id.
    unfold create. rewrite land_type by apply V. rewrite <- S1, <- S2, <- S3, !Nat.eqb_refl, Z.eqb_refl. cbn [andb]. destruct (hbuf g) eqn:HB; [|congruence]. rewrite SH; auto. rewrite L. unfold rowlen in *. rewrite S1, S2, S3. nia. }
  split. { rewrite <- (app_nil_r (_ ++ _)). apply G. auto. } intros z rest. apply G. right. eauto.
Qed.
(** Whatever the archive holds, loading into a matrix whose rows follow each other is safe: it ends with cv::Exception exactly for a negative size, with
    an archive exception exactly if the announced bytes are not there, and otherwise with a valid matrix of the announced shape that holds them. *)
Lemma read_bytes_inv n ar : match read_bytes n ar with
  | Ok (bs, rest) => length bs = n /\ ar = map IByte bs ++ rest
  | StreamError => forall bs rest, length bs = n -> ar <> map IByte bs ++ rest
  | _ => False
  end.
Proof.
  revert ar. induction n as [|n IH]; intros ar; cbn [read_bytes]; [auto|]. destruct ar as [|[z|b] ar].
  - intros [|b bs] rest L; [discriminate|]. cbn. discriminate.
  - intros [|b bs] rest L; [discriminate|]. cbn. congruence.
  - specialize (IH ar). destruct (read_bytes n ar) as [[l r]| | |]; cbn [bind]; try contradiction.
    + destruct IH as [<- ->]. auto.
    + intros [|b' bs] rest L; [discriminate|]. cbn. injection L as L. intros E. apply (IH bs rest L). congruence.
Qed.
Theorem mat_load_any_archive m g fill ar : valid m g -> (hbuf g <> None -> packed g) ->
  match load m g fill ar with
  | Ok (m2, g2, rest) => exists r c ty bs, ar = INum (Z.of_nat r) :: INum (Z.of_nat c) :: INum ty :: map IByte bs ++ rest /\ valid m2 g2 /\
      hrows g2 = r /\ hcols g2 = c /\ htype g2 = Z.land ty 4095 /\ length bs = r * rowlen g2 /\
      forall i k, i < r -> k < rowlen g2 -> byte_at m2 g2 i k = nth_error bs (i * rowlen g2 + k)
  | CvError => exists r c ty rest, ar = INum r :: INum c :: INum ty :: rest /\ (r < 0 \/ c < 0)%Z
  | StreamError => forall r c ty rest, ar = INum r :: INum c :: INum ty :: rest -> (0 <= r)%Z /\ (0 <= c)%Z /\
      forall bs t, length bs = Z.to_nat r * (Z.to_nat c * esize (Z.land ty 4095)) -> rest <> map IByte bs ++ t
  | UB => False
  end.
Proof.
  intros V PK. destruct ar as [|[r|?] ar]; try (cbn; discriminate). destruct ar as [|[c|?] ar]; try (cbn; discriminate). destruct ar as [|[ty|?] ar]; try (cbn; discriminate).
  destruct (Z_lt_le_dec r 0) as [R|R].
  { unfold load. cbn [read_num bind]. replace (r <? 0)%Z with true by (symmetry; apply Z.ltb_lt; auto). cbn [orb]. exists r, c, ty, ar. auto. }
  destruct (Z_lt_le_dec c 0) as [C|C].
  { unfold load. cbn [read_num bind]. replace (c <? 0)%Z with true by (symmetry; apply Z.ltb_lt; auto). rewrite orb_true_r. exists r, c, ty, ar. auto. }
  assert (LL : forall t, load m g fill (INum r :: INum c :: INum ty :: t) = load m g fill (INum r :: INum c :: INum (Z.land ty 4095) :: t)).
  { intros t. unfold load. cbn [read_num bind]. destruct (_ || _); auto. unfold create. rewrite <- Z.land_assoc. reflexivity. }
  rewrite LL. pose proof (land_range ty) as LR.
  pose proof (read_bytes_inv (Z.to_nat r * (Z.to_nat c * esize (Z.land ty 4095))) ar) as RI.
  destruct (read_bytes (Z.to_nat r * (Z.to_nat c * esize (Z.land ty 4095))) ar) as [[bs rest]| | |] eqn:RB; try contradiction.
  - destruct RI as [L ->]. destruct (load_spec m g fill (Z.to_nat r) (Z.to_nat c) (Z.land ty 4095) bs rest V LR L) as (m2 & g2 & E & V2 & _ & H1 & H2 & H3 & H4 & _).
    { auto. } rewrite !Z2Nat.id in E by auto. cbn [app] in E. rewrite E. exists (Z.to_nat r), (Z.to_nat c), ty, bs.
    assert (RL : rowlen g2 = Z.to_nat c * esize (Z.land ty 4095)) by (unfold rowlen; rewrite H2, H3; auto).
    rewrite !Z2Nat.id, RL by auto. auto 10.
  - assert (X : load m g fill (INum r :: INum c :: INum (Z.land ty 4095) :: ar) = StreamError).
    { unfold load. cbn [read_num bind]. replace (r <? 0)%Z with false by (symmetry; apply Z.ltb_ge; auto). replace (c <? 0)%Z with false by (symmetry; apply Z.ltb_ge; auto). cbn [orb].
      unfold create. rewrite (land_type _ LR). set (t := Z.land ty 4095) in *.
      destruct (Nat.eqb_spec (hrows g) (Z.to_nat r)) as [E1|]; cbn [andb]; [|destruct (Nat.eqb _ 0); cbn [hstep hrows]; rewrite Nat.mul_comm, RB; auto].
      destruct (Nat.eqb_spec (hcols g) (Z.to_nat c)) as [E2|]; cbn [andb]; [|destruct (Nat.eqb _ 0); cbn [hstep hrows]; rewrite Nat.mul_comm, RB; auto].
      destruct (Z.eqb_spec (htype g) t) as [E3|]; cbn [andb]; [|destruct (Nat.eqb _ 0); cbn [hstep hrows]; rewrite Nat.mul_comm, RB; auto].
      destruct (hbuf g) as [b0|] eqn:E4; [|destruct (Nat.eqb _ 0); cbn [hstep hrows]; rewrite Nat.mul_comm, RB; auto].
      replace (hstep g * hrows g) with (Z.to_nat r * (Z.to_nat c * esize t)); [rewrite RB; auto|].
      destruct PK as [P|P]; [discriminate|rewrite <- E1, P; lia|]. rewrite P. unfold rowlen. rewrite E2, E3, E1. apply Nat.mul_comm. }
    rewrite X. intros r' c' ty' rest E. injection E as <- <- <- <-. split; [auto|]. split; [auto|]. exact RI.
Qed.
(** so the round trip fails for regions: undefined behaviour in save, a misread item after load, and an exception in load *)
Definition buf34 : memory := [[0; 1; 2; 3; 4; 5; 6; 7; 8; 9; 10; 11]%Z].
Definition img34 : header := Hd 3 4 0 (Some 0) 0 4 true.
Theorem mat_roundtrip_refuted :
  valid buf34 img34 /\ valid buf34 (region img34 2 1 1 2) /\ save buf34 (region img34 2 1 1 2) = UB /\
  (exists ar m2 g2, save buf34 (region img34 0 1 1 2) = Ok ar /\ load [] empty_mat (fun _ => 0%Z) (ar ++ [INum 7]) = Ok (m2, g2, [IByte 3; IByte 4; INum 7])) /\
  (exists ar, save buf34 (Hd 2 2 0 (Some 0) 0 2 true) = Ok ar /\ load buf34 (region img34 0 1 2 2) (fun _ => 0%Z) (ar ++ [INum 7]) = StreamError).
Proof.
  assert (V : valid buf34 img34). { unfold valid, img34, rowlen. cbn [hrows hcols htype hbuf hoff hstep hcont]. split; [lia|]. split; [cbn; lia|]. split; [auto|]. right. right. exists 0, [0; 1; 2; 3; 4; 5; 6; 7; 8; 9; 10; 11]%Z. split; [reflexivity|]. split; [reflexivity|]. cbn. lia. }
  split; [exact V|]. split. { apply region_valid; [exact V| |]; cbn; lia. }
  split; [reflexivity|]. split; [eexists _, _, _; split; reflexivity|eexists; split; reflexivity].
Qed.
(** a region of several rows is cloned and does come back *)
Example region_roundtrip : let g := region img34 0 1 2 2 in valid buf34 g /\ hcont g = false /\ (hrows g = 1 -> packed g) /\
  exists ar, save buf34 g = Ok ar /\ ar = [INum 2; INum 2; INum 0; IByte 1; IByte 2; IByte 5; IByte 6].
Proof.
  cbv zeta. split. { apply region_valid; [apply mat_roundtrip_refuted| |]; cbn; lia. } split; [reflexivity|]. split; [discriminate|]. eexists. split; reflexivity.
Qed.
(** keypoints *)
Theorem keypoint_roundtrip k ar : load_keypoint (save_keypoint k ++ ar) = Ok (k, ar).
Proof. destruct k. reflexivity. Qed.
(** a vector of keypoints is read back in order *)
Fixpoint load_keypoints (n : nat) (ar : list item) : res (list keypoint * list item) :=
  match n with O => Ok ([], ar) | S k => bind (load_keypoint ar) (fun '(x, ar) => bind (load_keypoints k ar) (fun '(l, ar) => Ok (x :: l, ar))) end.
Theorem keypoints_roundtrip ks ar : load_keypoints (length ks) (flat_map save_keypoint ks ++ ar) = Ok (ks, ar).
Proof. induction ks as [|k ks IH]; auto. cbn [length load_keypoints flat_map]. rewrite <- app_assoc, keypoint_roundtrip. cbn [bind]. rewrite IH. auto. Qed.

(** The element sizes: channels times the bytes of CV_8U, 8S, 16U, 16S, 32S, 32F, 64F (and 8 for the user type); cv::Mat() is an empty CV_8UC1. *)
Theorem element_sizes d channels : (0 <= d < 8)%Z -> (1 <= channels <= 512)%Z ->
  esize (d + 8 * (channels - 1)) = Z.to_nat channels * nth (Z.to_nat d) [1; 1; 2; 2; 4; 4; 8; 8] 0.
Proof.
  intros D C. unfold esize.
  assert (S3 : Z.shiftr (d + 8 * (channels - 1)) 3 = (channels - 1)%Z).
  { rewrite Z.shiftr_div_pow2 by lia. change (2 ^ 3)%Z with 8%Z. rewrite (Z.mul_comm 8), Z.div_add by lia. rewrite Z.div_small; lia. }
  assert (L3 : Z.land (d + 8 * (channels - 1)) 7 = d).
  { change 7%Z with (Z.ones 3). rewrite Z.land_ones by lia. change (2 ^ 3)%Z with 8%Z. rewrite (Z.mul_comm 8), Z.mod_add by lia. apply Z.mod_small. lia. }
  rewrite S3, L3. change 511%Z with (Z.ones 9). rewrite Z.land_ones by lia. rewrite Z.mod_small by (change (2 ^ 9)%Z with 512%Z; lia).
  replace (Z.to_nat (channels - 1) + 1) with (Z.to_nat channels) by lia. f_equal.
  assert (X : (d = 0 \/ d = 1 \/ d = 2 \/ d = 3 \/ d = 4 \/ d = 5 \/ d = 6 \/ d = 7)%Z) by lia.
  repeat (destruct X as [-> |X]; [reflexivity|]). subst d. reflexivity.
Qed.
Theorem empty_is_empty : hrows empty_mat = 0 /\ hcols empty_mat = 0 /\ htype empty_mat = 0%Z /\ hbuf empty_mat = None /\ hcont empty_mat = true.
Proof. repeat split. Qed.
