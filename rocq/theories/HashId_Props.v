(** Property theorems for [sm::HashId] (C01-C04). *)
From Verif Require Import Bytes HashId_Model HashId_Proofs.
Open Scope N_scope.

Definition lower_hex_char (c : byte) : Prop :=
  In c (str "0123456789abcdef").
Definition hex_char (c : byte) : Prop :=
  In c (str "0123456789abcdefABCDEF").

Lemma lower_hex_char_ok c : is_lower_xdigit c = true -> lower_hex_char c.
Proof.
  intros H. unfold is_lower_xdigit, is_digit in H.
  assert (B : (c < 256)%N) by (repeat (apply orb_true_iff in H; destruct H as [H|H]);
    apply andb_true_iff in H; destruct H as [H1 H2]; apply N.leb_le in H1, H2; lia).
  assert (A : forallb (fun c => if is_lower_xdigit c then existsb (N.eqb c) (str "0123456789abcdef") else true) all_bytes = true)
    by (vm_compute; reflexivity).
  rewrite forallb_forall in A. specialize (A c (in_all_bytes c B)). cbv beta in A.
  unfold is_lower_xdigit, is_digit in A. rewrite H in A. apply existsb_exists in A.
  destruct A as (x & Hx & E). apply N.eqb_eq in E. subst. exact Hx.
Qed.

Lemma hex_char_ok c : hex_char c -> is_xdigit c = true /\ c < 256.
Proof.
  unfold hex_char. cbn. intros H. repeat (destruct H as [<-|H]; [split; reflexivity|]). contradiction.
Qed.

(** C01: the hex string of any id has 32 lower case hex digits, parses back to the id whatever the
    previous value of the parsing object, and identifies the id. *)
Theorem hexString_roundtrip : forall old h : hashid, wf_id old -> wf_id h ->
  List.length (hexString h) = 32%nat /\
  Forall lower_hex_char (hexString h) /\
  fromHexString old (hexString h) = FhsReturn true h.
Proof.
  intros old h Ho Hh. split; [|split].
  - rewrite hexString_length. destruct Hh as [-> _]. reflexivity.
  - destruct Hh as [_ W]. eapply Forall_impl; [|apply hexString_chars; exact W].
    intros c Hc. apply lower_hex_char_ok; exact Hc.
  - exact (hex_roundtrip old h Ho Hh).
Qed.
Print Assumptions hexString_roundtrip.

Theorem hexString_injective : forall h1 h2 : hashid, wf_id h1 -> wf_id h2 ->
  hexString h1 = hexString h2 -> h1 = h2.
Proof. exact hexString_inj. Qed.
Print Assumptions hexString_injective.

Example id_example : wf_id (fromUint64 81985529216486895 18364758544493064720).
Proof. apply fromUint64_wf. Qed.
Example hex_example : hexString (fromUint64 81985529216486895 18364758544493064720)
                      = str "efcdab89674523011032547698badcfe".
Proof. vm_compute. reflexivity. Qed.

(** The two 64-bit words and the 16 bytes determine each other. *)
Theorem uint64_roundtrip :
  (forall a b, a < 2^64 -> b < 2^64 -> toUint64 (fromUint64 a b) = (a, b)) /\
  (forall h, wf_id h -> fromUint64 (fst (toUint64 h)) (snd (toUint64 h)) = h).
Proof. split; [exact toUint64_fromUint64 | exact fromUint64_toUint64]. Qed.
Print Assumptions uint64_roundtrip.

(** C02, refuted: strings that are not 32 hex digits are accepted ("-1", " 5", "1g", "0x" pairs),
    and a failing parse can leave the object modified.  hash_id.hpp:80-83. *)
Theorem fromHexString_rejects_refuted :
  (exists s h', List.length s = 32%nat /\ ~ Forall hex_char s /\
     fromHexString invalid_id s = FhsReturn true h' /\ h' <> invalid_id) /\
  (exists s h', fromHexString invalid_id s = FhsThrow h' /\ h' <> invalid_id).
Proof.
  split.
  - exists (str "-1 51g0x000000000000000000000000"), (255 :: 5 :: 1 :: repeat 0 13).
    split; [reflexivity|]. split; [|split; [vm_compute; reflexivity|discriminate]].
    intros H. inversion H as [|? ? H1 _]; subst. cbn in H1.
    repeat (destruct H1 as [H1|H1]; [discriminate|]). exact H1.
  - exists (str "77zz0000000000000000000000000000"), (119 :: repeat 0 15).
    split; [vm_compute; reflexivity|discriminate].
Qed.
Print Assumptions fromHexString_rejects_refuted.

(** C02, what holds (missing from the full statement: rejection of 32-character non-hex input):
    a wrong length is rejected without effect; 32 hex digits of either case are accepted and yield
    the id they denote; for every input the outcome is exactly one of return-false-unchanged,
    return-true, or a throw that leaves a suffix of the old bytes in place, and acceptance is
    decided pair by pair as described by [pair_accepted]. *)
Theorem fromHexString_partial : forall (h : hashid) (s : bytes), wf_id h -> wf_bytes s ->
  (List.length s <> 32%nat -> fromHexString h s = FhsReturn false h) /\
  (List.length s = 32%nat -> Forall hex_char s ->
     exists h', fromHexString h s = FhsReturn true h' /\ wf_id h' /\
                hexString h' = List.map to_lower s) /\
  ((exists h', fromHexString h s = FhsReturn true h') <-> accepts s = true) /\
  (forall h', fromHexString h s = FhsThrow h' ->
     wf_id h' /\ exists k, (k < 16)%nat /\ skipn k h' = skipn k h).
Proof.
  intros h s Hh Hs. split; [|split; [|split]].
  - apply fromHexString_bad_length.
  - intros L Hx. apply fromHexString_hex; auto.
    eapply Forall_impl; [|exact Hx]. intros c Hc. apply hex_char_ok; exact Hc.
  - destruct (fromHexString_exact h s Hh Hs) as [[L E]|[[A [h' [E _]]]|[L [A (h' & k & E & _)]]]];
      rewrite E.
    + split; [intros [h' H]; discriminate|]. unfold accepts.
      destruct (Nat.eqb_spec (List.length s) 32); [congruence|discriminate].
    + split; eauto.
    + split; [intros [h'' H]; discriminate|congruence].
  - intros h' E.
    destruct (fromHexString_exact h s Hh Hs) as [[L E']|[[A [h'' [E' _]]]|[L [A (h'' & k & E' & W & K & S)]]]];
      rewrite E' in E; try discriminate.
    inversion E; subst. split; auto. exists k; auto.
Qed.
Print Assumptions fromHexString_partial.

(** C03 *)
Theorem hashid_strict_total_order : forall a b c : hashid, wf_id a -> wf_id b -> wf_id c ->
  id_lt a a = false /\
  (id_lt a b = true -> id_lt b c = true -> id_lt a c = true) /\
  (id_lt a b = true \/ a = b \/ id_lt b a = true) /\
  id_gt a b = id_lt b a /\
  (id_eq a b = true <-> a = b) /\
  id_ne a b = negb (id_eq a b) /\
  (isValid a = false <-> a = invalid_id) /\
  (a = invalid_id \/ id_lt invalid_id a = true).
Proof.
  intros a b c Ha Hb Hc.
  exact (conj (id_lt_irrefl a) (conj (id_lt_trans a b c) (conj (id_lt_total a b Ha Hb)
    (conj (id_gt_lt a b) (conj (id_eq_spec a b Ha Hb) (conj eq_refl
    (conj (isValid_spec a Ha) (invalid_min a Ha)))))))).
Qed.
Print Assumptions hashid_strict_total_order.

Example order_example :
  id_lt (fromUint64 1 7) (fromUint64 2 0) = true /\ id_lt (fromUint64 2 0) (fromUint64 2 1) = true.
Proof. vm_compute. auto. Qed.

(** C04 *)
Theorem hash_no_collision_shared_half : forall a b : hashid, wf_id a -> wf_id b -> a <> b ->
  (fst (toUint64 a) = fst (toUint64 b) \/ snd (toUint64 a) = snd (toUint64 b)) ->
  hashToSizeT a <> hashToSizeT b /\ hashToSizeTFast a <> hashToSizeTFast b.
Proof.
  intros a b Ha Hb N S. split; intros E; apply N.
  - exact (hash_shared_half a b Ha Hb S E).
  - exact (hashfast_shared_half a b Ha Hb S E).
Qed.
Print Assumptions hash_no_collision_shared_half.

(** The restriction to a shared half is necessary: 128 bits do not fit in 64. *)
Example hash_collision_in_general :
  hashToSizeTFast (fromUint64 1 2) = hashToSizeTFast (fromUint64 2 1).
Proof. vm_compute. reflexivity. Qed.

(** The hash is FNV-1a over the two 64-bit words of the id, with the 64-bit FNV constants; the fast one skips the products. *)
Definition fnv_basis : N := 0xcbf29ce484222325.
Definition fnv_prime : N := 2 ^ 40 + 2 ^ 8 + 0xb3.
Definition fnv_step (h w : N) : N := (N.lxor h w * fnv_prime) mod 2 ^ 64.
Theorem hash_is_fnv : forall h : hashid,
  hashToSizeT h = fold_left fnv_step [fst (toUint64 h); snd (toUint64 h)] fnv_basis /\
  hashToSizeTFast h = fold_left N.lxor [fst (toUint64 h); snd (toUint64 h)] fnv_basis.
Proof. intros h. split; reflexivity. Qed.
