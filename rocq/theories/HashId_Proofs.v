From Verif Require Import Bytes HashId_Model.
From Coq Require Import ZifyBool ZifyNat ZifyN.
Open Scope N_scope.
Local Ltac Zify.zify_post_hook ::= Z.div_mod_to_equations.

(** ** Hex codec *)

Lemma hexbyte_roundtrip b : b < 256 ->
  stoul16 [hexdigit (N.shiftr b 4); hexdigit (N.land b 15)] = Some b.
Proof.
  intros Hb.
  assert (H : forallb (fun b => match stoul16 [hexdigit (N.shiftr b 4); hexdigit (N.land b 15)] with
                        Some v => N.eqb v b | None => false end) all_bytes = true)
    by (vm_compute; reflexivity).
  rewrite forallb_forall in H. specialize (H b (in_all_bytes b Hb)).
  destruct (stoul16 _) as [v|]; [|discriminate]. apply N.eqb_eq in H. congruence.
Qed.

Definition is_lower_xdigit (c : byte) : bool := is_digit c || ((97 <=? c) && (c <=? 102)).

Lemma hexdigit_lower b : b < 256 ->
  is_lower_xdigit (hexdigit (N.shiftr b 4)) = true /\
  is_lower_xdigit (hexdigit (N.land b 15)) = true.
Proof.
  intros Hb.
  assert (H : forallb (fun b => is_lower_xdigit (hexdigit (N.shiftr b 4)) &&
                                is_lower_xdigit (hexdigit (N.land b 15))) all_bytes = true)
    by (vm_compute; reflexivity).
  rewrite forallb_forall in H. specialize (H b (in_all_bytes b Hb)).
  apply andb_true_iff in H. exact H.
Qed.

Lemma hexString_length h : List.length (hexString h) = (2 * List.length h)%nat.
Proof. induction h as [|b h IH]; cbn [hexString List.length]; [reflexivity|]. rewrite IH. lia. Qed.

Lemma hexString_chars h : wf_bytes h -> Forall (fun c => is_lower_xdigit c = true) (hexString h).
Proof.
  induction 1 as [|b h Hb Hh IH]; cbn [hexString]; [constructor|].
  destruct (hexdigit_lower b Hb) as [H1 H2]. constructor; [exact H1|constructor; [exact H2|exact IH]].
Qed.

Lemma fhs_loop_hex h : wf_bytes h -> forall old done,
  List.length old = List.length h ->
  fhs_loop done old (hexString h) = FhsReturn true (done ++ h).
Proof.
  induction 1 as [|b h Hb Hh IH]; intros [|o old] done Hlen; cbn [List.length] in Hlen; try lia.
  - reflexivity.
  - cbn [hexString fhs_loop]. rewrite hexbyte_roundtrip by exact Hb.
    rewrite N.mod_small by exact Hb. rewrite IH by lia.
    rewrite <- app_assoc. reflexivity.
Qed.

Lemma hex_roundtrip old h : wf_id old -> wf_id h ->
  fromHexString old (hexString h) = FhsReturn true h.
Proof.
  intros [Ho _] [Hl Hw]. unfold fromHexString.
  rewrite hexString_length, Hl. change ((2 * 16 =? 32)%nat) with true. cbn [negb].
  rewrite fhs_loop_hex by (auto; congruence). reflexivity.
Qed.

Lemma hexString_inj h1 h2 : wf_id h1 -> wf_id h2 -> hexString h1 = hexString h2 -> h1 = h2.
Proof.
  intros H1 H2 E.
  pose proof (hex_roundtrip h1 h1 H1 H1) as R1. pose proof (hex_roundtrip h1 h2 H1 H2) as R2.
  rewrite E in R1. congruence.
Qed.

(** ** What fromHexString accepts *)

(** Independent description of the two-character inputs the byte parser accepts. *)
Definition pair_accepted (a b : byte) : bool :=
  is_xdigit a || ((is_space a || (a =? 43) || (a =? 45)) && is_xdigit b).

Lemma pair_accepted_ok a b : a < 256 -> b < 256 ->
  match stoul16 [a; b] with Some _ => true | None => false end = pair_accepted a b.
Proof.
  intros Ha Hb.
  assert (H : forallb (fun a => forallb (fun b =>
      Bool.eqb (match stoul16 [a; b] with Some _ => true | None => false end) (pair_accepted a b))
      all_bytes) all_bytes = true) by (vm_compute; reflexivity).
  rewrite forallb_forall in H. specialize (H a (in_all_bytes a Ha)). cbv beta in H.
  rewrite forallb_forall in H. specialize (H b (in_all_bytes b Hb)). cbv beta in H.
  apply Bool.eqb_prop in H. exact H.
Qed.

Definition nibble (c : byte) : N :=
  if is_digit c then c - 48 else if is_upper c then c - 55 else c - 87.

Lemma pair_hex a b : a < 256 -> b < 256 -> is_xdigit a = true -> is_xdigit b = true ->
  stoul16 [a; b] = Some (16 * nibble a + nibble b) /\ 16 * nibble a + nibble b < 256 /\
  hexString [16 * nibble a + nibble b] = [to_lower a; to_lower b].
Proof.
  intros Ha Hb Xa Xb.
  assert (H : forallb (fun a => forallb (fun b => if is_xdigit a && is_xdigit b then
      (match stoul16 [a; b] with
       | Some v => (v =? 16 * nibble a + nibble b) && (v <? 256) &&
                   bytes_eqb (hexString [v]) [to_lower a; to_lower b]
       | None => false end) else true)
      all_bytes) all_bytes = true) by (vm_compute; reflexivity).
  rewrite forallb_forall in H. specialize (H a (in_all_bytes a Ha)). cbv beta in H.
  rewrite forallb_forall in H. specialize (H b (in_all_bytes b Hb)). cbv beta in H.
  rewrite Xa, Xb in H. cbn [andb] in H.
  destruct (stoul16 [a; b]) as [v|]; [|discriminate].
  apply andb_true_iff in H; destruct H as [H H3]. apply andb_true_iff in H; destruct H as [H1 H2].
  apply N.eqb_eq in H1. subst v. apply bytes_eqb_eq in H3. repeat split; auto. lia.
Qed.

(** Shape induction on even-length strings. *)
Fixpoint pairs_of (s : bytes) : list (byte * byte) :=
  match s with a :: b :: r => (a, b) :: pairs_of r | _ => [] end.

Lemma fhs_loop_accept n : forall old done s, List.length old = n -> List.length s = (2 * n)%nat ->
  wf_bytes s -> wf_bytes done -> wf_bytes old ->
  if forallb (fun p => pair_accepted (fst p) (snd p)) (pairs_of s)
  then exists h, fhs_loop done old s = FhsReturn true (done ++ h) /\ List.length h = n /\ wf_bytes h
  else exists k new, fhs_loop done old s = FhsThrow (done ++ new ++ skipn k old) /\
                     List.length new = k /\ (k < n)%nat /\ wf_bytes new.
Proof.
  induction n as [|n IH]; intros old done s Ho Hs Ws Wd Wo.
  - destruct old; [|discriminate]. destruct s; [|discriminate]. cbn.
    exists []. repeat split; auto; constructor.
  - destruct old as [|o old]; [discriminate|]. destruct s as [|a [|b s]]; cbn [List.length] in *; try lia.
    inversion Ws as [|? ? Ha Ws1]; subst. inversion Ws1 as [|? ? Hb Ws2]; subst.
    inversion Wo as [|? ? Hoo Wo2]; subst.
    cbn [pairs_of forallb fst snd fhs_loop].
    pose proof (pair_accepted_ok a b Ha Hb) as HP.
    destruct (stoul16 [a; b]) as [v|] eqn:Ev; rewrite <- HP; cbn [andb].
    + assert (Hv : v mod 256 < 256) by (apply N.mod_lt; discriminate).
      specialize (IH old (done ++ [v mod 256]) s ltac:(lia) ltac:(lia) Ws2).
      assert (Wd2 : wf_bytes (done ++ [v mod 256])).
      { apply Forall_app; split; auto. }
      specialize (IH Wd2 Wo2).
      destruct (forallb _ (pairs_of s)).
      * destruct IH as (h & E & L & W). exists (v mod 256 :: h). rewrite E, <- app_assoc.
        repeat split; cbn; auto. constructor; auto.
      * destruct IH as (k & new & E & L & Lt & W). exists (S k), (v mod 256 :: new).
        rewrite E, <- app_assoc. cbn. repeat split; auto. all: try lia. constructor; auto.
    + exists 0%nat, []. cbn. repeat split; auto. lia. constructor.
Qed.

Lemma fromHexString_bad_length h s : List.length s <> 32%nat -> fromHexString h s = FhsReturn false h.
Proof. intros H. unfold fromHexString. destruct (Nat.eqb_spec (List.length s) 32); [congruence|reflexivity]. Qed.

Definition accepts (s : bytes) : bool :=
  Nat.eqb (List.length s) 32 && forallb (fun p => pair_accepted (fst p) (snd p)) (pairs_of s).

Lemma fromHexString_exact h s : wf_id h -> wf_bytes s ->
  (List.length s <> 32%nat /\ fromHexString h s = FhsReturn false h) \/
  (accepts s = true /\ exists h', fromHexString h s = FhsReturn true h' /\ wf_id h') \/
  (List.length s = 32%nat /\ accepts s = false /\
   exists h' k, fromHexString h s = FhsThrow h' /\ wf_id h' /\ (k < 16)%nat /\ skipn k h' = skipn k h).
Proof.
  intros [Hl Hw] Ws. destruct (Nat.eq_dec (List.length s) 32) as [E|E].
  2:{ left. split; auto. apply fromHexString_bad_length; auto. }
  right. unfold fromHexString, accepts. rewrite E. change ((32 =? 32)%nat) with true. cbn [negb andb].
  pose proof (fhs_loop_accept 16 h [] s Hl ltac:(lia) Ws ltac:(constructor) Hw) as H.
  destruct (forallb _ (pairs_of s)).
  - destruct H as (h' & E1 & L & W). left. split; auto. exists h'. rewrite E1. cbn. repeat split; auto.
  - destruct H as (k & new & E1 & L & Lt & W). right. repeat split; auto.
    exists (new ++ skipn k h), k. rewrite E1. cbn [app]. repeat split; auto.
    + rewrite app_length, skipn_length. lia.
    + apply Forall_app; split; auto. rewrite <- (firstn_skipn k h) in Hw.
      apply Forall_app in Hw. apply Hw.
    + rewrite skipn_app, L, Nat.sub_diag. rewrite <- L at 1. rewrite skipn_all. cbn. reflexivity.
Qed.

Lemma fhs_loop_hexdigits n : forall old done s, List.length old = n -> List.length s = (2 * n)%nat ->
  wf_bytes s -> Forall (fun c => is_xdigit c = true) s ->
  exists h, fhs_loop done old s = FhsReturn true (done ++ h) /\ List.length h = n /\ wf_bytes h /\
            hexString h = List.map to_lower s.
Proof.
  induction n as [|n IH]; intros old done s Ho Hs Ws Hx.
  - destruct old; [|discriminate]. destruct s; [|discriminate]. exists []. repeat split; constructor.
  - destruct old as [|o old]; [discriminate|]. destruct s as [|a [|b s]]; cbn [List.length] in *; try lia.
    inversion Ws as [|? ? Ha Ws1]; subst. inversion Ws1 as [|? ? Hb Ws2]; subst.
    inversion Hx as [|? ? Xa Hx1]; subst. inversion Hx1 as [|? ? Xb Hx2]; subst.
    destruct (pair_hex a b Ha Hb Xa Xb) as (E & Lt & Hh).
    revert E Lt Hh. generalize (16 * nibble a + nibble b). intros v E Lt Hh.
    cbn [fhs_loop]. rewrite E. rewrite N.mod_small by exact Lt.
    destruct (IH old (done ++ [v]) s ltac:(lia) ltac:(lia) Ws2 Hx2)
      as (h & E2 & L & W & Hs2).
    exists (v :: h). rewrite E2, <- app_assoc. cbn [app List.length List.map].
    repeat split; [lia|constructor; auto|].
    change (hexString (v :: h)) with (hexString [v] ++ hexString h). rewrite Hh, Hs2. reflexivity.
Qed.

Lemma fromHexString_hex h s : wf_id h -> wf_bytes s -> List.length s = 32%nat ->
  Forall (fun c => is_xdigit c = true) s ->
  exists h', fromHexString h s = FhsReturn true h' /\ wf_id h' /\ hexString h' = List.map to_lower s.
Proof.
  intros [Hl Hw] Ws E Hx. unfold fromHexString. rewrite E. change ((32 =? 32)%nat) with true. cbn [negb].
  destruct (fhs_loop_hexdigits 16 h [] s Hl ltac:(lia) Ws Hx) as (h' & E1 & L & W & HH).
  exists h'. rewrite E1. repeat split; auto.
Qed.

(** ** u64 views *)

Lemma le_val_bound l : wf_bytes l -> le_val l < 256 ^ N.of_nat (List.length l).
Proof.
  induction 1 as [|b l Hb Hl IH]; cbn [le_val List.length]; [cbn; lia|].
  rewrite Nat2N.inj_succ, N.pow_succ_r'. lia.
Qed.

Lemma le_val_inj l1 l2 : wf_bytes l1 -> wf_bytes l2 -> List.length l1 = List.length l2 ->
  le_val l1 = le_val l2 -> l1 = l2.
Proof.
  intros H1; revert l2; induction H1 as [|b l Hb Hl IH]; intros [|c l2] H2 L E; cbn [le_val List.length] in L, E; try lia; auto.
  inversion H2; subst. assert (b = c) by lia. subst. f_equal. apply IH; auto. lia.
Qed.

Lemma wf_firstn k h : wf_bytes h -> wf_bytes (firstn k h).
Proof. intros H. rewrite <- (firstn_skipn k h) in H. apply Forall_app in H. apply H. Qed.
Lemma wf_skipn k h : wf_bytes h -> wf_bytes (skipn k h).
Proof. intros H. rewrite <- (firstn_skipn k h) in H. apply Forall_app in H. apply H. Qed.

Lemma u0_bound h : wf_id h -> u0 h < 2^64.
Proof.
  intros [L W]. unfold u0. pose proof (le_val_bound _ (wf_firstn 8 h W)) as B.
  rewrite firstn_length, L in B. exact B.
Qed.
Lemma u1_bound h : wf_id h -> u1 h < 2^64.
Proof.
  intros [L W]. unfold u1. pose proof (le_val_bound _ (wf_skipn 8 h W)) as B.
  rewrite skipn_length, L in B. exact B.
Qed.

Lemma id_ext a b : wf_id a -> wf_id b -> u0 a = u0 b -> u1 a = u1 b -> a = b.
Proof.
  intros [La Wa] [Lb Wb] E0 E1. rewrite <- (firstn_skipn 8 a), <- (firstn_skipn 8 b).
  f_equal; apply le_val_inj; auto using wf_firstn, wf_skipn;
    rewrite ?firstn_length, ?skipn_length, La, Lb; reflexivity.
Qed.

Lemma le_bytes_length n v : List.length (le_bytes n v) = n.
Proof. revert v; induction n as [|n IH]; intros v; cbn; auto. Qed.
Lemma le_bytes_wf n v : wf_bytes (le_bytes n v).
Proof.
  revert v; induction n as [|n IH]; intros v; cbn [le_bytes]; constructor; [|apply IH].
  apply N.mod_lt; discriminate.
Qed.
Lemma le_val_bytes n v : v < 256 ^ N.of_nat n -> le_val (le_bytes n v) = v.
Proof.
  revert v; induction n as [|n IH]; intros v Hv; cbn [le_bytes le_val].
  - cbn in Hv. lia.
  - rewrite Nat2N.inj_succ, N.pow_succ_r' in Hv. rewrite IH; lia.
Qed.

Lemma fromUint64_wf a b : wf_id (fromUint64 a b).
Proof.
  split; unfold fromUint64.
  - rewrite app_length, !le_bytes_length. reflexivity.
  - apply Forall_app; split; apply le_bytes_wf.
Qed.

Lemma toUint64_fromUint64 a b : a < 2^64 -> b < 2^64 -> toUint64 (fromUint64 a b) = (a, b).
Proof.
  intros Ha Hb. unfold toUint64, u0, u1, fromUint64.
  rewrite firstn_app, le_bytes_length, Nat.sub_diag. rewrite skipn_app, le_bytes_length, Nat.sub_diag.
  rewrite firstn_O, skipn_O, app_nil_r. rewrite firstn_all2 by (rewrite le_bytes_length; lia).
  rewrite skipn_all2 by (rewrite le_bytes_length; lia). cbn [app].
  rewrite !le_val_bytes by assumption. reflexivity.
Qed.

Lemma fromUint64_toUint64 h : wf_id h -> fromUint64 (fst (toUint64 h)) (snd (toUint64 h)) = h.
Proof.
  intros H. pose proof (toUint64_fromUint64 (u0 h) (u1 h) (u0_bound h H) (u1_bound h H)) as E.
  unfold toUint64 in *. cbn [fst snd].
  injection E as E0 E1. apply id_ext; auto using fromUint64_wf.
Qed.

(** ** Order *)
Lemma id_eq_spec a b : wf_id a -> wf_id b -> id_eq a b = true <-> a = b.
Proof.
  intros Ha Hb. unfold id_eq. rewrite andb_true_iff, !N.eqb_eq. split; [intros []; apply id_ext; auto|].
  intros ->; auto.
Qed.
Lemma id_lt_spec a b : id_lt a b = true <-> (u0 a < u0 b \/ (u0 a = u0 b /\ u1 a < u1 b)).
Proof.
  unfold id_lt. destruct (N.eqb_spec (u0 a) (u0 b)); rewrite N.ltb_lt; lia.
Qed.
Lemma id_gt_lt a b : id_gt a b = id_lt b a.
Proof. unfold id_gt, id_lt. rewrite (N.eqb_sym (u0 b)). reflexivity. Qed.
Lemma id_lt_irrefl a : id_lt a a = false.
Proof. destruct (id_lt a a) eqn:E; auto. apply id_lt_spec in E. lia. Qed.
Lemma id_lt_trans a b c : id_lt a b = true -> id_lt b c = true -> id_lt a c = true.
Proof. rewrite !id_lt_spec. lia. Qed.
Lemma id_lt_total a b : wf_id a -> wf_id b -> id_lt a b = true \/ a = b \/ id_lt b a = true.
Proof.
  intros Ha Hb. rewrite !id_lt_spec. rewrite <- (id_eq_spec a b Ha Hb). unfold id_eq.
  rewrite andb_true_iff, !N.eqb_eq. lia.
Qed.
Lemma invalid_wf : wf_id invalid_id.
Proof.
  split; [reflexivity|]. unfold invalid_id, wf_bytes. apply Forall_forall. intros x Hx.
  apply repeat_spec in Hx. subst; reflexivity.
Qed.
Lemma isValid_spec a : wf_id a -> isValid a = false <-> a = invalid_id.
Proof.
  intros Ha. split.
  - intros H. unfold isValid in H. apply id_ext; auto using invalid_wf;
    change (u0 invalid_id) with 0; change (u1 invalid_id) with 0; lia.
  - intros ->; reflexivity.
Qed.
Lemma invalid_min a : wf_id a -> a = invalid_id \/ id_lt invalid_id a = true.
Proof.
  intros Ha. destruct (isValid a) eqn:E.
  - right. apply id_lt_spec. change (u0 invalid_id) with 0. change (u1 invalid_id) with 0.
    unfold isValid in E. lia.
  - left. apply isValid_spec; auto.
Qed.

(** ** Hash *)
Definition kPrimeInv : N := 14886173955864302971.
Lemma kPrimeInv_ok : (kPrime * kPrimeInv) mod 2^64 = 1.
Proof. vm_compute. reflexivity. Qed.

Lemma mulprime_inj x y : x < 2^64 -> y < 2^64 ->
  (x * kPrime) mod 2^64 = (y * kPrime) mod 2^64 -> x = y.
Proof.
  intros Hx Hy E.
  assert (R : forall z, z < 2^64 -> (((z * kPrime) mod 2^64) * kPrimeInv) mod 2^64 = z).
  { intros z Hz. rewrite N.mul_mod_idemp_l by discriminate. rewrite <- N.mul_assoc.
    rewrite <- N.mul_mod_idemp_r by discriminate. rewrite kPrimeInv_ok, N.mul_1_r.
    apply N.mod_small; exact Hz. }
  rewrite <- (R x Hx), <- (R y Hy), E. reflexivity.
Qed.

Lemma lxor_bound a b n : a < 2^n -> b < 2^n -> N.lxor a b < 2^n.
Proof.
  intros Ha Hb. destruct (N.eq_dec (N.lxor a b) 0) as [E|E]; [rewrite E; lia|].
  apply N.log2_lt_pow2; [lia|].
  eapply N.le_lt_trans; [apply N.log2_lxor|].
  apply N.max_lub_lt.
  - destruct (N.eq_dec a 0) as [->|Na].
    + cbn. destruct n; [|lia]. cbn in *. assert (b = 0) by lia. subst. now elim E.
    + apply N.log2_lt_pow2; lia.
  - destruct (N.eq_dec b 0) as [->|Nb].
    + cbn. destruct n; [|lia]. cbn in *. assert (a = 0) by lia. subst. now elim E.
    + apply N.log2_lt_pow2; lia.
Qed.

Lemma lxor_inj_l a b c : N.lxor a b = N.lxor a c -> b = c.
Proof.
  intros H. rewrite <- (N.lxor_0_l b), <- (N.lxor_0_l c), <- (N.lxor_nilpotent a), !N.lxor_assoc, H.
  reflexivity.
Qed.
Lemma lxor_inj_r a b c : N.lxor b a = N.lxor c a -> b = c.
Proof. rewrite !(N.lxor_comm _ a). apply lxor_inj_l. Qed.

Lemma basis_bound : kOffsetBasis < 2^64. Proof. reflexivity. Qed.

Lemma hash_shared_half a b : wf_id a -> wf_id b ->
  (u0 a = u0 b \/ u1 a = u1 b) -> hashToSizeT a = hashToSizeT b -> a = b.
Proof.
  intros Ha Hb Hs E. unfold hashToSizeT in E.
  assert (B0 : forall h, wf_id h -> N.lxor kOffsetBasis (u0 h) < 2^64)
    by (intros; apply lxor_bound; auto using u0_bound, basis_bound).
  assert (M : forall x, (x * kPrime) mod 2^64 < 2^64) by (intros; apply N.mod_lt; discriminate).
  apply mulprime_inj in E; [| apply lxor_bound; auto using u1_bound
                            | apply lxor_bound; auto using u1_bound].
  destruct Hs as [Hs|Hs].
  - rewrite Hs in E. apply lxor_inj_l in E. apply id_ext; auto.
  - rewrite Hs in E. apply lxor_inj_r in E. apply mulprime_inj in E; auto.
    apply lxor_inj_l in E. apply id_ext; auto.
Qed.

Lemma hashfast_shared_half a b : wf_id a -> wf_id b ->
  (u0 a = u0 b \/ u1 a = u1 b) -> hashToSizeTFast a = hashToSizeTFast b -> a = b.
Proof.
  intros Ha Hb Hs E. unfold hashToSizeTFast in E. destruct Hs as [Hs|Hs].
  - rewrite Hs in E. apply lxor_inj_l in E. apply id_ext; auto.
  - rewrite Hs in E. apply lxor_inj_r in E. apply lxor_inj_l in E. apply id_ext; auto.
Qed.

Lemma hash_bound a : hashToSizeT a < 2^64.
Proof. unfold hashToSizeT. apply N.mod_lt; discriminate. Qed.
