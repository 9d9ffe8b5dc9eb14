(** C06-C11: property theorems for sm/string_routines.hpp. *)
From Verif Require Import Bytes Strings_Model Strings_Spec Strings_Proofs.
Open Scope nat_scope.

(** C06 is false in general: with target = replacement the loop never ends once there is anything
    to replace, whatever the number of iterations granted (string_routines.hpp:19-24: [pos] is not
    advanced after the assignment, and find() finds the same position again). *)
Theorem replace_terminates_refuted :
  exists s t r skip, forall fuel, replace fuel s t r skip = None.
Proof. exists (str "a"), 97%N, 97%N, 0. intros fuel. apply (replace_same 97%N (str "a") 0 fuel). cbn. lia. Qed.

(** C06, what holds: for target <> replacement it terminates (within length+1 iterations) and is exactly
    "keep the first [skip] occurrences, replace all later ones"; for target = replacement it
    returns the input if at most [skip] occurrences exist, and diverges otherwise. *)
Theorem replace_partial : forall s t r skip,
  (t <> r -> forall fuel, length s < fuel -> replace fuel s t r skip = Some (replace_after t r skip s)) /\
  (t = r -> count t s <= skip -> forall fuel, length s < fuel -> replace fuel s t r skip = Some s) /\
  (t = r -> skip < count t s -> forall fuel, replace fuel s t r skip = None).
Proof.
  exact (fun s t r skip => conj (fun H fuel Hf => replace_ok t r s skip fuel H Hf)
    (conj (fun H Hc fuel Hf => eq_ind t (fun r => replace fuel s t r skip = Some s)
             (proj1 (replace_same t s skip fuel) Hc Hf) r H)
          (fun H Hc fuel => eq_ind t (fun r => replace fuel s t r skip = None)
             (proj2 (replace_same t s skip fuel) Hc) r H))).
Qed.

(** C07 is false: position 0 decremented wraps to npos, so the scan restarts at the end and
    replaces occurrences that were to be kept (string_routines.hpp:37: pos--). *)
Theorem replace_reverse_keeps_refuted :
  replace_reverse 10 (str "a") 97%N 98%N 1 = Some (str "b") /\
  replace_before 97%N 98%N 1 (str "a") = str "a".
Proof. split; reflexivity. Qed.

(** C07, what holds: exact characterisation for target <> replacement. The number of kept
    occurrences is [skip], except that when the string starts with the target it is
    [skip mod (number of occurrences)]. For target = replacement the loop diverges as soon as
    something would be replaced. *)
Theorem replace_reverse_partial : forall s t r skip,
  (t <> r -> forall fuel, length s + skip < fuel ->
     replace_reverse fuel s t r skip = Some (replace_before t r (eff_skip t skip s) s)) /\
  (t <> r -> (skip < count t s \/ hd_error s <> Some t) -> forall fuel, length s + skip < fuel ->
     replace_reverse fuel s t r skip = Some (replace_before t r skip s)) /\
  (t = r -> eff_skip t skip s < count t s -> forall fuel, replace_reverse fuel s t r skip = None) /\
  (t = r -> count t s <= eff_skip t skip s -> forall fuel, length s + skip < fuel ->
     replace_reverse fuel s t r skip = Some s).
Proof.
  intros s t r skip. split; [|split; [|split]].
  - intros H fuel Hf. apply replace_reverse_ok; auto.
  - intros H Hk fuel Hf. rewrite replace_reverse_ok by auto. f_equal. f_equal.
    destruct s as [|c s]; [reflexivity|]. cbn [eff_skip].
    destruct (N.eqb_spec c t) as [->|]; [|reflexivity].
    destruct Hk as [Hk|Hk]; [apply Nat.mod_small; exact Hk|cbn in Hk; congruence].
  - intros <- Hc fuel. apply replace_reverse_same; exact Hc.
  - intros <- Hc fuel Hf. apply replace_reverse_same_ok; auto.
Qed.

(** C08. *)
Theorem padding_spec : forall (s : bytes) (n : nat) (c : byte),
  (exists k, leading_pad s n c = repeat c k ++ s) /\ length (leading_pad s n c) = Nat.max n (length s) /\
  (exists k, padded s n c = repeat c k ++ s) /\ length (padded s n c) = Nat.max n (length s).
Proof.
  intros s n c. rewrite leading_pad_spec. unfold padded.
  split; [eexists; reflexivity|]. split; [rewrite app_length, repeat_length; lia|].
  split; [eexists; reflexivity|]. rewrite app_length, repeat_length; lia.
Qed.

(** C09. [getenv] is asked for the C string of the name (cut at an embedded NUL). *)
Theorem substituteEnvVars_spec : forall getenv s fuel, length s + 1 < fuel ->
  exists out, substituteEnvVars getenv fuel s = Some out /\
    (forall o, EnvSubst (fun n => getenv (c_str n)) s o <-> o = out).
Proof.
  intros getenv s fuel Hf.
  destruct (subst_loop_ok getenv fuel [] [] s [] Hf) as (X & HE & _).
  exists X. split; [apply substituteEnvVars_ok; auto|].
  intros o; split; [intros Ho; eapply EnvSubst_det; eauto|intros ->; exact HE].
Qed.

(** C10. *)
Theorem ensureTrailingBackslash_spec : forall s,
  (exists p, ensureTrailingBackslash s = p ++ [SLASH]) /\
  (ensureTrailingBackslash s = s \/ ensureTrailingBackslash s = s ++ [SLASH]) /\
  (ensureTrailingBackslash s = s <-> exists p, s = p ++ [SLASH]) /\
  ensureTrailingBackslash (ensureTrailingBackslash s) = ensureTrailingBackslash s.
Proof.
  intros s. destruct (ensureTrailing_cases s) as [[E [p Hp]]|[E Hp]]; rewrite E.
  - repeat split; eauto.
  - repeat split; eauto.
    + intros [p Hp']. exfalso. exact (Hp p Hp').
    + destruct (ensureTrailing_cases (s ++ [SLASH])) as [[E' _]|[_ N]]; auto. exfalso; eapply N; reflexivity.
Qed.

(** C11. *)
Theorem toStream_spec : forall elems d p q,
  toStream elems d p q = p ++ join d elems ++ q /\
  arrToString elems = str "[" ++ join (str ",") elems ++ str "]" /\
  (2 <= length elems -> s_tuple elems = str "[" ++ join (str ",") elems ++ str "]").
Proof.
  intros. split; [apply toStream_join|]. split; [apply toStream_join|].
  destruct elems as [|a [|b r]]; cbn [length]; intros H; try lia.
  unfold s_tuple. rewrite join_concat. rewrite <- app_assoc. reflexivity.
Qed.
Theorem arrToString_injective : forall e1 e2, length e1 = length e2 ->
  Forall (fun x => ~ In 44%N x) e1 -> Forall (fun x => ~ In 44%N x) e2 ->
  arrToString e1 = arrToString e2 -> e1 = e2.
Proof.
  intros e1 e2 L H1 H2 E. unfold arrToString in E. rewrite !toStream_join in E.
  apply app_inv_head in E. apply app_inv_tail in E. eapply (join_inj 44%N); eauto.
Qed.

(** Non-vacuity: concrete cases meeting the hypotheses. *)
Example ex_replace : replace 20 (str "a.b.c.d") 46%N 47%N 1 = Some (str "a.b/c/d"). Proof. reflexivity. Qed.
Example ex_replace_reverse : replace_reverse 20 (str "a.b.c.d") 46%N 47%N 1 = Some (str "a/b/c.d"). Proof. reflexivity. Qed.
Example ex_leading_pad : leading_pad (str "42") 5 48%N = str "00042". Proof. reflexivity. Qed.
Example ex_env : substituteEnvVars (fun n => if bytes_eqb n (str "HOME") then Some (str "/r$(HOME)") else None) 99
   (str "x$(HOME)/$(NO)y$(HO") = Some (str "x/r$(HOME)/$(NO)y$(HO"). Proof. reflexivity. Qed.
Example ex_bs : ensureTrailingBackslash (str "/a") = str "/a/" /\ ensureTrailingBackslash [] = str "/".
Proof. split; reflexivity. Qed.
Example ex_arr : arrToString [str "1"; str "22"; str "3"] = str "[1,22,3]". Proof. reflexivity. Qed.

Print Assumptions replace_partial.
Print Assumptions replace_terminates_refuted.
Print Assumptions replace_reverse_partial.
Print Assumptions replace_reverse_keeps_refuted.
Print Assumptions padding_spec.
Print Assumptions substituteEnvVars_spec.
Print Assumptions ensureTrailingBackslash_spec.
Print Assumptions toStream_spec.
Print Assumptions arrToString_injective.
