From Verif Require Import Bytes Strings_Model Strings_Spec.
Open Scope nat_scope.

Lemma filter_length_le {A} (f : A -> bool) (l : list A) : length (filter f l) <= length l.
Proof. induction l as [|x l IH]; cbn; [lia|]. destruct (f x); cbn; lia. Qed.

(** ** find / rfind *)
Lemma find_idx_Some c s k : find_idx c s = Some k ->
  exists a b, s = a ++ c :: b /\ length a = k /\ ~ In c a.
Proof.
  revert k; induction s as [|x s IH]; intros k H; cbn in H; [discriminate|].
  destruct (N.eqb_spec x c) as [->|N].
  - inversion H; subst. exists [], s. repeat split; auto.
  - destruct (find_idx c s) as [j|]; [|discriminate]. cbn in H. inversion H; subst.
    destruct (IH j eq_refl) as (a & b & -> & L & Nin). exists (x :: a), b.
    repeat split; cbn; auto. intros [E|E]; auto.
Qed.
Lemma find_idx_None c s : find_idx c s = None -> ~ In c s.
Proof.
  induction s as [|x s IH]; cbn; intros H; [tauto|].
  destruct (N.eqb_spec x c) as [->|N]; [discriminate|].
  destruct (find_idx c s); [discriminate|]. intros [E|E]; auto. apply IH; auto.
Qed.
Lemma find_idx_app c a b : ~ In c a -> find_idx c (a ++ c :: b) = Some (length a).
Proof.
  induction a as [|x a IH]; cbn; intros H.
  - rewrite N.eqb_refl. reflexivity.
  - destruct (N.eqb_spec x c) as [->|N]; [tauto|]. rewrite IH by tauto. reflexivity.
Qed.
Lemma find_idx_notin c s : ~ In c s -> find_idx c s = None.
Proof.
  induction s as [|x s IH]; cbn; intros H; auto.
  destruct (N.eqb_spec x c) as [->|N]; [tauto|]. rewrite IH by tauto. reflexivity.
Qed.

Lemma rfind_idx_app c a b : ~ In c b -> rfind_idx c (a ++ c :: b) = Some (length a).
Proof.
  assert (H0 : forall b, ~ In c b -> rfind_idx c b = None).
  { induction b0 as [|x s IH]; cbn; intros H; auto. rewrite IH by tauto.
    destruct (N.eqb_spec x c) as [->|N]; tauto. }
  intros Hb. induction a as [|x a IH]; cbn.
  - rewrite H0 by exact Hb. rewrite N.eqb_refl. reflexivity.
  - rewrite IH. reflexivity.
Qed.
Lemma rfind_idx_notin c b : ~ In c b -> rfind_idx c b = None.
Proof.
  induction b as [|x s IH]; cbn; intros H; auto. rewrite IH by tauto.
  destruct (N.eqb_spec x c) as [->|N]; tauto.
Qed.
Lemma rfind_idx_cases c s : (rfind_idx c s = None /\ ~ In c s) \/
  exists a b, s = a ++ c :: b /\ ~ In c b /\ rfind_idx c s = Some (length a).
Proof.
  induction s as [|x s IH] using rev_ind; [left; split; auto|].
  destruct (N.eqb_spec x c) as [->|N].
  - right. exists s, []. repeat split; auto. apply rfind_idx_app; auto.
  - destruct IH as [[E H]|(a & b & -> & Nb & E)].
    + left. split; [|rewrite in_app_iff; cbn; intuition].
      apply rfind_idx_notin. rewrite in_app_iff; cbn; intuition.
    + right. exists a, (b ++ [x]). rewrite <- app_assoc. cbn. split; auto.
      split; [rewrite in_app_iff; cbn; intuition|]. apply rfind_idx_app. rewrite in_app_iff; cbn; intuition.
Qed.

Lemma set_nth_app a x b v : set_nth (a ++ x :: b) (length a) v = a ++ v :: b.
Proof. induction a as [|y a IH]; cbn; congruence. Qed.

Lemma skipn_app_exact {A} (a b : list A) : skipn (length a) (a ++ b) = b.
Proof. rewrite skipn_app, skipn_all, Nat.sub_diag. reflexivity. Qed.
Lemma firstn_app_exact {A} (a b : list A) : firstn (length a) (a ++ b) = a.
Proof. rewrite firstn_app, firstn_all, Nat.sub_diag. cbn. apply app_nil_r. Qed.

(** ** replace *)
Lemma replace_after_notin t r k s : ~ In t s -> replace_after t r k s = s.
Proof.
  induction s as [|c s IH]; cbn; intros H; auto.
  destruct (N.eqb_spec c t) as [->|N]; [tauto|]. rewrite IH; tauto.
Qed.
Lemma replace_after_app t r k a s : ~ In t a -> replace_after t r k (a ++ s) = a ++ replace_after t r k s.
Proof.
  induction a as [|c a IH]; cbn; intros H; auto.
  destruct (N.eqb_spec c t) as [->|N]; [tauto|]. rewrite IH; tauto.
Qed.
Lemma count_app t a b : count t (a ++ b) = count t a + count t b.
Proof. unfold count. rewrite filter_app, app_length. reflexivity. Qed.
Lemma count_cons_eq t s : count t (t :: s) = S (count t s).
Proof. unfold count. cbn. rewrite N.eqb_refl. reflexivity. Qed.
Lemma count_notin t s : ~ In t s -> count t s = 0.
Proof.
  unfold count. induction s as [|c s IH]; cbn; intros H; auto.
  destruct (N.eqb_spec c t) as [->|N]; [tauto|]. apply IH; tauto.
Qed.

Lemma find_from_app c a s : find_from c (a ++ s) (length a) =
  option_map (fun k => length a + k) (find_idx c s).
Proof. unfold find_from. rewrite skipn_app_exact. reflexivity. Qed.

Lemma replace_loop_ok t r : t <> r -> forall fuel pre s skip,
  count t s < fuel ->
  replace_loop fuel (pre ++ s) t r skip (length pre) = Some (pre ++ replace_after t r skip s).
Proof.
  intros Hne. induction fuel as [|fuel IH]; intros pre s skip Hf; [lia|].
  cbn [replace_loop]. rewrite find_from_app.
  destruct (find_idx t s) as [k|] eqn:E; cbn [option_map].
  - apply find_idx_Some in E. destruct E as (a & b & -> & <- & Na).
    rewrite count_app, count_cons_eq in Hf.
    rewrite replace_after_app by exact Na. cbn [replace_after]. rewrite N.eqb_refl.
    destruct skip as [|skip].
    + rewrite app_assoc. rewrite <- app_length. rewrite set_nth_app.
      assert (F : find_from t ((pre ++ a) ++ r :: b) (length (pre ++ a)) =
                  find_from t ((pre ++ a ++ [r]) ++ b) (length (pre ++ a ++ [r]))).
      { rewrite !find_from_app. cbn [find_idx].
        destruct (N.eqb_spec r t) as [Ert|]; [congruence|].
        rewrite !app_length. destruct (find_idx t b); cbn; auto. f_equal. lia. }
      destruct fuel as [|fuel']; [lia|].
      specialize (IH (pre ++ a ++ [r]) b 0 ltac:(lia)).
      cbn [replace_loop] in IH |- *. rewrite <- F in IH.
      replace ((pre ++ a) ++ r :: b) with ((pre ++ a ++ [r]) ++ b) in * by (rewrite <- !app_assoc; reflexivity).
      rewrite IH. rewrite <- !app_assoc. reflexivity.
    + specialize (IH (pre ++ a ++ [t]) b skip ltac:(lia)).
      replace (length pre + length a + 1) with (length (pre ++ a ++ [t]))
        by (rewrite !app_length; cbn; lia).
      replace (pre ++ a ++ t :: b) with ((pre ++ a ++ [t]) ++ b) by (rewrite <- !app_assoc; reflexivity).
      rewrite IH. rewrite <- !app_assoc. reflexivity.
  - apply find_idx_None in E. rewrite replace_after_notin by exact E. reflexivity.
Qed.

Lemma replace_ok t r s skip fuel : t <> r -> length s < fuel ->
  replace fuel s t r skip = Some (replace_after t r skip s).
Proof.
  intros Hne Hf. unfold replace. apply (replace_loop_ok t r Hne fuel [] s skip).
  unfold count. pose proof (filter_length_le (fun c => N.eqb c t) s). lia.
Qed.

Lemma replace_loop_same t : forall fuel pre s skip,
  match replace_loop fuel (pre ++ s) t t skip (length pre) with
  | Some out => out = pre ++ s /\ count t s <= skip
  | None => skip < count t s \/ fuel <= count t s
  end.
Proof.
  induction fuel as [|fuel IH]; intros pre s skip; cbn [replace_loop]; [lia|].
  rewrite find_from_app. destruct (find_idx t s) as [k|] eqn:E; cbn [option_map].
  - apply find_idx_Some in E. destruct E as (a & b & -> & <- & Na).
    rewrite count_app, count_cons_eq, (count_notin t a Na).
    destruct skip as [|skip].
    + rewrite app_assoc, <- app_length, set_nth_app.
      specialize (IH (pre ++ a) (t :: b) 0). rewrite count_cons_eq in IH.
      destruct (replace_loop fuel _ _ _ _ _) as [out|]; lia.
    + specialize (IH (pre ++ a ++ [t]) b skip).
      replace (length pre + length a + 1) with (length (pre ++ a ++ [t]))
        by (rewrite !app_length; cbn; lia).
      replace (pre ++ a ++ t :: b) with ((pre ++ a ++ [t]) ++ b) by (rewrite <- !app_assoc; reflexivity).
      destruct (replace_loop fuel _ _ _ _ _) as [out|]; [destruct IH; split; auto|]; lia.
  - apply find_idx_None in E. rewrite (count_notin t s E). split; auto. lia.
Qed.

Lemma replace_same t s skip fuel :
  (count t s <= skip -> length s < fuel -> replace fuel s t t skip = Some s) /\
  (skip < count t s -> replace fuel s t t skip = None).
Proof.
  pose proof (replace_loop_same t fuel [] s skip) as H. cbn [app length] in H.
  pose proof (filter_length_le (fun c => N.eqb c t) s) as Hc. fold (count t s) in Hc.
  unfold replace. destruct (replace_loop _ _ _ _ _ _) as [out|].
  - destruct H as [-> H]. split; auto. lia.
  - split; auto. lia.
Qed.

(** ** replace_reverse *)
Lemma rev_notin (t : byte) (s : bytes) : ~ In t s -> ~ In t (rev s).
Proof. rewrite <- in_rev. auto. Qed.

Lemma replace_before_notin t r k s : ~ In t s -> replace_before t r k s = s.
Proof.
  intros H. unfold replace_before. rewrite replace_after_notin by (apply rev_notin; exact H).
  apply rev_involutive.
Qed.
Lemma replace_before_snoc_notin t r k s b : ~ In t b ->
  replace_before t r k (s ++ b) = replace_before t r k s ++ b.
Proof.
  intros H. unfold replace_before. rewrite rev_app_distr.
  rewrite replace_after_app by (apply rev_notin; exact H). rewrite rev_app_distr, rev_involutive. reflexivity.
Qed.
Lemma replace_before_snoc_hit t r s :
  replace_before t r 0 (s ++ [t]) = replace_before t r 0 s ++ [r].
Proof. unfold replace_before. rewrite rev_app_distr. cbn. rewrite N.eqb_refl. cbn. reflexivity. Qed.
Lemma replace_before_snoc_skip t r k s :
  replace_before t r (S k) (s ++ [t]) = replace_before t r k s ++ [t].
Proof. unfold replace_before. rewrite rev_app_distr. cbn. rewrite N.eqb_refl. cbn. reflexivity. Qed.

(** Position "scan everything in [s], ignore [post]". *)
Lemma rfind_from_at t s post p : rfind_from t (s ++ post) (Some p) =
  rfind_idx t (firstn (S p) (s ++ post)).
Proof. reflexivity. Qed.

(** The skipping phase is over (skip = 0): replaces everything in [s]; [post] untouched and not
    rescanned.  [pos] is the index of the last element of [s] ([s] not empty). *)
Lemma rr_loop_zero t r : t <> r -> forall fuel s post p,
  S p = length s -> count t s < fuel ->
  replace_reverse_loop fuel (s ++ post) t r 0 (Some p) = Some (replace_before t r 0 s ++ post).
Proof.
  intros Hne. induction fuel as [|fuel IH]; intros s post p Hp Hf; [lia|].
  cbn [replace_reverse_loop]. unfold rfind_from. rewrite Hp, firstn_app_exact.
  destruct (rfind_idx_cases t s) as [[E N]|(a & b & -> & Nb & E)]; rewrite E.
  - rewrite replace_before_notin by exact N. reflexivity.
  - rewrite count_app, count_cons_eq in Hf.
    rewrite <- app_assoc. cbn [app]. rewrite set_nth_app.
    specialize (IH (a ++ [r]) (b ++ post) (length a)).
    rewrite app_length in IH. cbn [length] in IH. specialize (IH ltac:(lia)).
    rewrite count_app in IH. assert (Cr : count t [r] = 0).
    { apply count_notin. cbn. intros [X|[]]. congruence. }
    specialize (IH ltac:(lia)). rewrite <- app_assoc in IH. cbn [app] in IH. rewrite IH.
    rewrite (replace_before_snoc_notin t r 0 a [r]) by (cbn; intros [X|[]]; congruence).
    change (a ++ t :: b) with (a ++ [t] ++ b). rewrite (app_assoc a [t] b).
    rewrite replace_before_snoc_notin by exact Nb. rewrite replace_before_snoc_hit.
    rewrite <- !app_assoc. reflexivity.
Qed.

(** What the scan window is: the whole string, or the prefix up to and including [p]. *)
Lemma count_bound t s : count t s <= length s.
Proof. unfold count. apply filter_length_le. Qed.

(** Effective skip of the code: if the string starts with the target, the position wraps around. *)
Definition eff_skip (t : byte) (skip : nat) (s : bytes) : nat :=
  match s with
  | c :: _ => if N.eqb c t then skip mod (count t s) else skip
  | [] => skip
  end.

(** One pass of skipping, window = prefix [s] of [s ++ post]. *)
Lemma rr_loop_pass t r : t <> r -> forall fuel s post p skip,
  S p = length s -> count t s < fuel -> skip < count t s ->
  replace_reverse_loop fuel (s ++ post) t r skip (Some p) = Some (replace_before t r skip s ++ post).
Proof.
  intros Hne. induction fuel as [|fuel IH]; intros s post p skip Hp Hf Hs; [lia|].
  destruct skip as [|skip]; [apply rr_loop_zero; auto|].
  cbn [replace_reverse_loop]. unfold rfind_from. rewrite Hp, firstn_app_exact.
  destruct (rfind_idx_cases t s) as [[E N]|(a & b & -> & Nb & E)]; rewrite E.
  - rewrite (count_notin t s N) in Hs. lia.
  - rewrite count_app, count_cons_eq, (count_notin t b Nb) in Hf, Hs.
    destruct (length a) as [|la] eqn:La.
    { destruct a; [|discriminate]. cbn in Hs. lia. }
    rewrite <- app_assoc. cbn [app].
    rewrite (IH a (t :: b ++ post) la skip) by lia.
    change (a ++ t :: b) with (a ++ [t] ++ b). rewrite (app_assoc a [t] b).
    rewrite replace_before_snoc_notin by exact Nb. rewrite replace_before_snoc_skip.
    rewrite <- !app_assoc. reflexivity.
Qed.

Lemma replace_before_all_kept t r : forall s k, count t s <= k -> replace_before t r k s = s.
Proof.
  intros s; induction s as [|x s IH] using rev_ind; intros k Hk; [reflexivity|].
  rewrite count_app in Hk. destruct (N.eqb_spec x t) as [->|N].
  - rewrite count_cons_eq in Hk. destruct k as [|k]; [cbn in Hk; lia|].
    rewrite replace_before_snoc_skip, IH; [reflexivity|]. cbn in Hk; lia.
  - rewrite replace_before_snoc_notin by (cbn; intuition). rewrite IH; [reflexivity|lia].
Qed.

(** Full pass over a window that does not start with the target: everything is skipped, done. *)
Lemma rr_loop_over_nohead t r : forall fuel s post p skip,
  S p = length s -> count t s <= skip -> count t s < fuel -> nth 0 s 0%N <> t ->
  replace_reverse_loop fuel (s ++ post) t r skip (Some p) = Some (s ++ post).
Proof.
  induction fuel as [|fuel IH]; intros s post p skip Hp Hs Hf Hh; [lia|].
  cbn [replace_reverse_loop]. unfold rfind_from. rewrite Hp, firstn_app_exact.
  destruct (rfind_idx_cases t s) as [[E N]|(a & b & -> & Nb & E)]; rewrite E; [reflexivity|].
  rewrite count_app, count_cons_eq, (count_notin t b Nb) in Hf, Hs.
  destruct skip as [|skip]; [lia|].
  destruct (length a) as [|la] eqn:La.
  { destruct a; [|discriminate]. cbn in Hh. congruence. }
  rewrite <- app_assoc. cbn [app]. apply IH; try lia.
  destruct a; [discriminate|]. exact Hh.
Qed.

(** Full pass over a window that starts with the target: wraps to npos with the rest of skip. *)
Lemma rr_loop_over_head t r : forall fuel s post p skip,
  S p = length s -> count t s <= skip -> nth 0 s 0%N = t ->
  replace_reverse_loop (count t s + fuel) (s ++ post) t r skip (Some p) =
  replace_reverse_loop fuel (s ++ post) t r (skip - count t s) None.
Proof.
  intros fuel s. remember (count t s) as n eqn:Hn. revert s Hn.
  induction n as [|n IH]; intros s Hn post p skip Hp Hs Hh.
  - destruct s as [|c s]; [discriminate|]. cbn in Hh. subst c. rewrite count_cons_eq in Hn. discriminate.
  - cbn [Nat.add replace_reverse_loop]. unfold rfind_from. rewrite Hp, firstn_app_exact.
    destruct (rfind_idx_cases t s) as [[E N]|(a & b & -> & Nb & E)].
    { rewrite (count_notin t s N) in Hn. discriminate. }
    rewrite E. rewrite count_app, count_cons_eq, (count_notin t b Nb) in Hn.
    destruct skip as [|skip]; [lia|].
    destruct (length a) as [|la] eqn:La.
    + destruct a; [|discriminate]. cbn in Hn. assert (n = 0) by lia. subst n. cbn [Nat.add].
      f_equal; lia.
    + rewrite <- app_assoc. cbn [app]. rewrite (IH a ltac:(lia)); try lia; [reflexivity|].
      destruct a; [discriminate|]. exact Hh.
Qed.

Lemma rr_start t r fuel s skip : s <> [] ->
  replace_reverse_loop fuel s t r skip None = replace_reverse_loop fuel s t r skip (Some (length s - 1)).
Proof.
  intros Hs. destruct fuel as [|fuel]; [reflexivity|]. cbn [replace_reverse_loop]. unfold rfind_from.
  destruct s as [|c s]; [congruence|]. cbn [length]. rewrite Nat.sub_succ, Nat.sub_0_r.
  rewrite firstn_all2 by (cbn; lia). reflexivity.
Qed.

Lemma replace_reverse_ok t r : t <> r -> forall skip s fuel, length s + skip < fuel ->
  replace_reverse fuel s t r skip = Some (replace_before t r (eff_skip t skip s) s).
Proof.
  intros Hne skip. induction skip as [skip IHs] using lt_wf_ind. intros s fuel Hf.
  destruct s as [|c s'] eqn:Es.
  { destruct fuel as [|fuel]; [lia|]. reflexivity. }
  pose proof (count_bound t s) as Hc. rewrite Es in Hc.
  unfold replace_reverse. rewrite rr_start by discriminate.
  rewrite <- (app_nil_r (c :: s')) at 1. cbn [eff_skip].
  destruct (N.eqb_spec c t) as [->|Nc].
  - assert (Hpos : 0 < count t (t :: s')) by (rewrite count_cons_eq; lia).
    destruct (le_lt_dec (count t (t :: s')) skip) as [Hle|Hlt].
    + replace fuel with (count t (t :: s') + (fuel - count t (t :: s'))) by lia.
      rewrite rr_loop_over_head by (auto; cbn [length]; lia). rewrite app_nil_r.
      assert (IH := IHs (skip - count t (t :: s')) ltac:(lia) (t :: s') (fuel - count t (t :: s')) ltac:(lia)).
      unfold replace_reverse in IH. rewrite IH.
      unfold eff_skip. rewrite N.eqb_refl. f_equal. f_equal.
      replace skip with ((skip - count t (t :: s')) + 1 * count t (t :: s')) at 2 by lia.
      rewrite Nat.mod_add by lia. reflexivity.
    + rewrite Nat.mod_small by exact Hlt.
      rewrite (rr_loop_pass t r Hne) by (auto; cbn [length] in *; lia). rewrite app_nil_r. reflexivity.
  - destruct (le_lt_dec (count t (c :: s')) skip) as [Hle|Hlt].
    + rewrite rr_loop_over_nohead by (auto; cbn [length] in *; lia).
      rewrite app_nil_r. rewrite replace_before_all_kept by exact Hle. reflexivity.
    + rewrite (rr_loop_pass t r Hne) by (auto; cbn [length] in *; lia). rewrite app_nil_r. reflexivity.
Qed.

(** target = replacement: diverges whenever it would replace something. *)
Lemma rr_loop_same_zero t : forall fuel s post p, S p = length s -> In t s ->
  replace_reverse_loop fuel (s ++ post) t t 0 (Some p) = None.
Proof.
  induction fuel as [|fuel IH]; intros s post p Hp Hin; [reflexivity|].
  cbn [replace_reverse_loop]. unfold rfind_from. rewrite Hp, firstn_app_exact.
  destruct (rfind_idx_cases t s) as [[E N]|(a & b & -> & Nb & E)]; [contradiction|]. rewrite E.
  rewrite <- app_assoc. cbn [app]. rewrite set_nth_app.
  replace (a ++ t :: b ++ post) with ((a ++ [t]) ++ b ++ post) by (rewrite <- app_assoc; reflexivity).
  apply IH; [rewrite app_length; cbn; lia|]. rewrite in_app_iff; cbn; auto.
Qed.

Lemma in_count t s : In t s <-> 0 < count t s.
Proof.
  split.
  - intros H. destruct (Nat.eq_dec (count t s) 0) as [E|]; [|lia].
    apply in_split in H. destruct H as (a & b & ->). rewrite count_app, count_cons_eq in E. lia.
  - intros H. destruct (in_dec N.eq_dec t s) as [|N]; auto. rewrite (count_notin t s N) in H. lia.
Qed.

Lemma rr_loop_same_pass t : forall fuel s post p skip, S p = length s -> skip < count t s ->
  replace_reverse_loop fuel (s ++ post) t t skip (Some p) = None.
Proof.
  induction fuel as [|fuel IH]; intros s post p skip Hp Hs; [reflexivity|].
  destruct skip as [|skip]; [apply rr_loop_same_zero; auto; apply in_count; exact Hs|].
  cbn [replace_reverse_loop]. unfold rfind_from. rewrite Hp, firstn_app_exact.
  destruct (rfind_idx_cases t s) as [[E N]|(a & b & -> & Nb & E)]; rewrite E.
  - rewrite (count_notin t s N) in Hs. lia.
  - rewrite count_app, count_cons_eq, (count_notin t b Nb) in Hs.
    destruct (length a) as [|la] eqn:La.
    { destruct a; [|discriminate]. cbn in Hs. lia. }
    rewrite <- app_assoc. cbn [app]. apply IH; lia.
Qed.

Lemma rr_None_mono t r : forall f1 f2 s skip pos, f1 <= f2 ->
  replace_reverse_loop f2 s t r skip pos = None -> replace_reverse_loop f1 s t r skip pos = None.
Proof.
  induction f1 as [|f1 IH]; intros f2 s skip pos Hle H; [reflexivity|].
  destruct f2 as [|f2]; [lia|]. cbn [replace_reverse_loop] in *.
  destruct (rfind_from t s pos) as [p|]; [|discriminate].
  destruct skip; eapply IH; try exact H; lia.
Qed.

Lemma replace_reverse_same t s skip fuel :
  eff_skip t skip s < count t s -> replace_reverse fuel s t t skip = None.
Proof.
  revert s fuel. induction skip as [skip IHs] using lt_wf_ind. intros s fuel H.
  destruct s as [|c s'] eqn:Es; [cbn in H; lia|].
  unfold replace_reverse. rewrite rr_start by discriminate.
  rewrite <- (app_nil_r (c :: s')) at 1. cbn [eff_skip] in H.
  destruct (N.eqb_spec c t) as [->|Nc].
  - assert (Hpos : 0 < count t (t :: s')) by (rewrite count_cons_eq; lia).
    destruct (le_lt_dec (count t (t :: s')) skip) as [Hle|Hlt].
    + apply rr_None_mono with (f2 := count t (t :: s') + fuel); [lia|].
      rewrite rr_loop_over_head by (auto; cbn [length]; lia). rewrite app_nil_r.
      apply (IHs (skip - count t (t :: s')) ltac:(lia)).
      cbn [eff_skip]. rewrite N.eqb_refl. apply Nat.mod_upper_bound; lia.
    + apply rr_loop_same_pass; [cbn [length]; lia|exact Hlt].
  - apply rr_loop_same_pass; [cbn [length]; lia|exact H].
Qed.

Lemma replace_reverse_same_ok t s skip fuel :
  count t s <= eff_skip t skip s -> length s + skip < fuel -> replace_reverse fuel s t t skip = Some s.
Proof.
  intros H Hf. destruct s as [|c s'].
  { destruct fuel; [lia|]. reflexivity. }
  pose proof (count_bound t (c :: s')) as Hc.
  cbn [eff_skip] in H. destruct (N.eqb_spec c t) as [->|Nc].
  - assert (skip mod count t (t :: s') < count t (t :: s'))
      by (apply Nat.mod_upper_bound; rewrite count_cons_eq; lia). lia.
  - unfold replace_reverse. rewrite rr_start by discriminate.
    rewrite <- (app_nil_r (c :: s')) at 1.
    rewrite rr_loop_over_nohead by (auto; cbn [length] in *; lia). rewrite app_nil_r. reflexivity.
Qed.

(** ** padding *)
Lemma leading_pad_spec s n c :
  leading_pad s n c = repeat c (n - length s) ++ s.
Proof.
  unfold leading_pad. destruct (Nat.ltb_spec (length s) n) as [H|H]; auto.
  replace (n - length s) with 0 by lia. reflexivity.
Qed.

(** ** environment substitution *)
Lemma find2_Some env a b s k : find2_idx a b s = Some k -> a = DOLLAR -> b = LPAR ->
  exists pre rest, s = pre ++ a :: b :: rest /\ length pre = k /\ forall X, EnvSubst env (a :: b :: rest) X -> EnvSubst env s (pre ++ X).
Proof.
  intros H -> ->. revert k H. induction s as [|x s IH]; intros k H; [discriminate|].
  cbn [find2_idx] in H. destruct s as [|y s]; [discriminate|].
  destruct (N.eqb x DOLLAR && N.eqb y LPAR) eqn:E.
  - apply andb_true_iff in E. destruct E as [E1 E2]. apply N.eqb_eq in E1, E2. subst.
    inversion H; subst. exists [], s. repeat split; auto.
  - destruct (find2_idx DOLLAR LPAR (y :: s)) as [j|]; [|discriminate]. cbn in H. inversion H; subst.
    destruct (IH j eq_refl) as (pre & rest & Es & L & HX). exists (x :: pre), rest.
    rewrite Es. repeat split; [cbn; lia|]. intros X HX'. cbn [app]. apply ES_char.
    + intros r Er. rewrite <- Es in Er. change (str "$(" ++ r) with (DOLLAR :: LPAR :: r) in Er.
      inversion Er; subst. rewrite !N.eqb_refl in E. discriminate.
    + rewrite <- Es. apply HX. exact HX'.
Qed.
Lemma find2_None env s : find2_idx DOLLAR LPAR s = None -> EnvSubst env s s.
Proof.
  induction s as [|x s IH]; intros H; [constructor|].
  apply ES_char.
  - intros r Er. change (str "$(" ++ r) with (DOLLAR :: LPAR :: r) in Er. inversion Er; subst. discriminate.
  - apply IH. cbn [find2_idx] in H. destruct s as [|y s]; [reflexivity|].
    destruct (N.eqb x DOLLAR && N.eqb y LPAR); [discriminate|].
    destruct (find2_idx DOLLAR LPAR (y :: s)); [discriminate|reflexivity].
Qed.

Lemma find2_from_app a s : find2_from DOLLAR LPAR (a ++ s) (length a) =
  option_map (fun k => length a + k) (find2_idx DOLLAR LPAR s).
Proof. unfold find2_from. rewrite skipn_app_exact. reflexivity. Qed.

Lemma subst_loop_ok getenv : forall fuel pre mid rest out,
  length rest + 1 < fuel ->
  exists X, EnvSubst (fun n => getenv (c_str n)) rest X /\ subst_loop getenv fuel (pre ++ mid ++ rest)
      (find2_from DOLLAR LPAR (pre ++ mid ++ rest) (length pre + length mid)) (length pre) out
    = Some (out ++ mid ++ X).
Proof.
  induction fuel as [|fuel IH]; intros pre mid rest out Hf; [lia|].
  rewrite app_assoc, <- app_length, find2_from_app.
  destruct (find2_idx DOLLAR LPAR rest) as [k|] eqn:E; cbn [option_map].
  - destruct (find2_Some (fun n => getenv (c_str n)) _ _ _ _ E eq_refl eq_refl)
      as (p2 & r2 & Er & L & HX).
    cbn [subst_loop].
    remember ((pre ++ mid) ++ rest) as S0 eqn:DS0.
    assert (ES0 : S0 = (pre ++ mid ++ p2) ++ DOLLAR :: LPAR :: r2).
    { rewrite DS0, Er, <- !app_assoc. reflexivity. }
    replace (length (pre ++ mid) + k) with (length (pre ++ mid ++ p2)) by (rewrite !app_length; lia).
    assert (FF : find_from RPAR S0 (length (pre ++ mid ++ p2)) =
      option_map (fun j => length (pre ++ mid ++ p2) + S (S j)) (find_idx RPAR r2)).
    { rewrite ES0, find_from_app. cbn [find_idx].
      change (N.eqb DOLLAR RPAR) with false. change (N.eqb LPAR RPAR) with false. cbn iota.
      destruct (find_idx RPAR r2); reflexivity. }
    rewrite FF.
    destruct (find_idx RPAR r2) as [j|] eqn:Ej; cbn [option_map].
    + apply find_idx_Some in Ej. destruct Ej as (name & r3 & Er2 & Ln & Nn).
      assert (Ename : substr S0 (length (pre ++ mid ++ p2) + 2)
                (length (pre ++ mid ++ p2) + S (S j) - length (pre ++ mid ++ p2) - 2) = name).
      { unfold substr. rewrite ES0, Er2.
        replace ((pre ++ mid ++ p2) ++ DOLLAR :: LPAR :: name ++ RPAR :: r3)
          with (((pre ++ mid ++ p2) ++ [DOLLAR; LPAR]) ++ name ++ RPAR :: r3)
          by (rewrite <- !app_assoc; reflexivity).
        replace (length (pre ++ mid ++ p2) + 2) with (length ((pre ++ mid ++ p2) ++ [DOLLAR; LPAR]))
          by (rewrite app_length; reflexivity).
        rewrite skipn_app_exact.
        replace (length (pre ++ mid ++ p2) + S (S j) - length (pre ++ mid ++ p2) - 2) with (length name) by lia.
        apply firstn_app_exact. }
      rewrite Ename.
      set (full := pre ++ mid ++ p2 ++ (DOLLAR :: LPAR :: name ++ [RPAR])).
      assert (ES1 : S0 = full ++ r3).
      { rewrite ES0, Er2. unfold full. rewrite <- !app_assoc. cbn [app]. rewrite <- !app_assoc. reflexivity. }
      assert (EL : length (pre ++ mid ++ p2) + S (S j) + 1 = length full).
      { unfold full. rewrite !app_length. cbn [length]. rewrite !app_length. cbn [length]. lia. }
      rewrite EL.
      assert (Hlen : length r3 + 1 < fuel).
      { rewrite Er, Er2, app_length in Hf. cbn [length] in Hf. rewrite app_length in Hf. cbn [length] in Hf. lia. }
      destruct (getenv (c_str name)) as [v|] eqn:Ev.
      * destruct (IH full [] r3 (out ++ substr S0 (length pre) (length (pre ++ mid ++ p2) - length pre) ++ v) Hlen)
          as (X & HE & HL).
        cbn [app length] in HL. rewrite Nat.add_0_r in HL. rewrite <- ES1 in HL. rewrite HL.
        exists (p2 ++ v ++ X). split.
        -- rewrite Er2 in HX. apply HX.
           change (DOLLAR :: LPAR :: name ++ RPAR :: r3) with (str "$(" ++ name ++ str ")" ++ r3).
           apply ES_set; auto.
        -- f_equal.
           assert (Es : substr S0 (length pre) (length (pre ++ mid ++ p2) - length pre) = mid ++ p2).
           { unfold substr. rewrite ES0, <- app_assoc, skipn_app_exact.
             replace (length (pre ++ mid ++ p2) - length pre) with (length (mid ++ p2))
               by (rewrite !app_length; lia).
             apply firstn_app_exact. }
           rewrite Es. rewrite <- !app_assoc. reflexivity.
      * destruct (IH pre (mid ++ p2 ++ (DOLLAR :: LPAR :: name ++ [RPAR])) r3 out Hlen) as (X & HE & HL).
        assert (Ef : pre ++ (mid ++ p2 ++ (DOLLAR :: LPAR :: name ++ [RPAR])) ++ r3 = S0).
        { rewrite ES1. unfold full. rewrite <- !app_assoc. reflexivity. }
        rewrite Ef in HL. rewrite <- app_length in HL.
        change (pre ++ mid ++ p2 ++ DOLLAR :: LPAR :: name ++ [RPAR]) with full in HL.
        rewrite HL.
        exists (p2 ++ (str "$(" ++ name ++ str ")" ++ X)). split.
        -- rewrite Er2 in HX. apply HX.
           change (DOLLAR :: LPAR :: name ++ RPAR :: r3) with (str "$(" ++ name ++ str ")" ++ r3).
           apply ES_unset; auto.
        -- f_equal. rewrite <- !app_assoc. cbn [app]. rewrite <- !app_assoc. reflexivity.
    + apply find_idx_None in Ej. destruct fuel as [|fuel]; [lia|]. cbn [subst_loop].
      exists (p2 ++ DOLLAR :: LPAR :: r2). split.
      * apply HX. change (DOLLAR :: LPAR :: r2) with (str "$(" ++ r2). apply ES_open. exact Ej.
      * f_equal. f_equal. rewrite DS0, <- app_assoc, skipn_app_exact, Er. reflexivity.
  - cbn [subst_loop]. exists rest. split; [apply find2_None; exact E|].
    rewrite <- app_assoc, skipn_app_exact. reflexivity.
Qed.

Lemma name_unique (n1 n2 r1 r2 : bytes) : ~ In 41%N n1 -> ~ In 41%N n2 ->
  n1 ++ 41%N :: r1 = n2 ++ 41%N :: r2 -> n1 = n2 /\ r1 = r2.
Proof.
  revert n2; induction n1 as [|c n1 IH]; intros [|d n2] H1 H2 E; cbn in *.
  - inversion E; auto.
  - inversion E; subst. exfalso; apply H2; auto.
  - inversion E; subst. exfalso; apply H1; auto.
  - inversion E; subst. destruct (IH n2) as [-> ->]; auto.
Qed.

Lemma EnvSubst_det env s a b : EnvSubst env s a -> EnvSubst env s b -> a = b.
Proof.
  intros H; revert b; induction H as [|n v r o Hn He H IH|n r o Hn He H IH|r Hr|c r o Hc H IH]; intros b Hb.
  - inversion Hb; auto.
  - inversion Hb as [|n' v' r' o' Hn' He' H' E|n' r' o' Hn' He' H' E|r' Hr' E|c r' o' Hc' H' E].
    + destruct (name_unique n' n r' r Hn' Hn E) as [-> ->]. rewrite He in He'. inversion He'; subst.
      f_equal. apply IH; auto.
    + destruct (name_unique n' n r' r Hn' Hn E) as [-> ->]. congruence.
    + subst r'. exfalso. apply Hr'. rewrite in_app_iff. right; left; reflexivity.
    + exfalso. eapply Hc'. rewrite E. reflexivity.
  - inversion Hb as [|n' v' r' o' Hn' He' H' E|n' r' o' Hn' He' H' E|r' Hr' E|c r' o' Hc' H' E].
    + destruct (name_unique n' n r' r Hn' Hn E) as [-> ->]. congruence.
    + destruct (name_unique n' n r' r Hn' Hn E) as [-> ->]. rewrite (IH _ H'). reflexivity.
    + subst r'. exfalso. apply Hr'. rewrite in_app_iff. right; left; reflexivity.
    + exfalso. eapply Hc'. rewrite E. reflexivity.
  - inversion Hb as [|n' v' r' o' Hn' He' H' E|n' r' o' Hn' He' H' E|r' Hr' E|c r' o' Hc' H' E].
    + exfalso. apply Hr. rewrite <- E. rewrite in_app_iff. right; left; reflexivity.
    + exfalso. apply Hr. rewrite <- E. rewrite in_app_iff. right; left; reflexivity.
    + reflexivity.
    + exfalso. eapply Hc'. rewrite E. reflexivity.
  - inversion Hb as [|n' v' r' o' Hn' He' H' E|n' r' o' Hn' He' H' E|r' Hr' E|c' r' o' Hc' H' E].
    + exfalso. subst. eapply Hc. reflexivity.
    + exfalso. subst. eapply Hc. reflexivity.
    + exfalso. subst. eapply Hc. reflexivity.
    + subst. f_equal. apply IH; auto.
Qed.

Lemma substituteEnvVars_ok getenv fuel s out : length s + 1 < fuel ->
  substituteEnvVars getenv fuel s = Some out <-> EnvSubst (fun n => getenv (c_str n)) s out.
Proof.
  intros Hf. destruct (subst_loop_ok getenv fuel [] [] s [] Hf) as (X & HE & HL).
  cbn [app length Nat.add] in HL. unfold substituteEnvVars. rewrite HL. split.
  - intros E; inversion E; subst; auto.
  - intros H. f_equal. eapply EnvSubst_det; eauto.
Qed.

(** ** ensureTrailingBackslash *)
Lemma ensureTrailing_cases s :
  (ensureTrailingBackslash s = s /\ exists p, s = p ++ [SLASH]) \/
  (ensureTrailingBackslash s = s ++ [SLASH] /\ forall p, s <> p ++ [SLASH]).
Proof.
  unfold ensureTrailingBackslash.
  destruct s as [|x s] using rev_ind.
  - right; split; auto. intros [|? ?]; discriminate.
  - rewrite app_length. cbn [length]. replace (length s + 1 =? 0) with false by (symmetry; apply Nat.eqb_neq; lia).
    replace (length s + 1 - 1) with (length s) by lia. rewrite nth_middle.
    destruct (N.eqb_spec x SLASH) as [->|N].
    + left; split; auto. exists s; auto.
    + right; split; auto. intros p Hp. apply app_inj_tail in Hp. destruct Hp; congruence.
Qed.

(** ** joining *)
Lemma fold_join (d : bytes) (r : list bytes) : forall acc, fold_left (fun acc x => acc ++ d ++ x) r acc =
  acc ++ concat (map (fun x => d ++ x) r).
Proof.
  induction r as [|x r IH]; intros acc; cbn; [rewrite app_nil_r; auto|].
  rewrite IH, <- !app_assoc. reflexivity.
Qed.
Lemma join_concat (d e : bytes) r : join d (e :: r) = e ++ concat (map (fun x => d ++ x) r).
Proof.
  revert e; induction r as [|x r IH]; intros e; [cbn; rewrite app_nil_r; auto|].
  change (join d (e :: x :: r)) with (e ++ d ++ join d (x :: r)).
  rewrite IH. cbn [map concat]. rewrite <- !app_assoc. reflexivity.
Qed.
Lemma toStream_join elems d p q : toStream elems d p q = p ++ join d elems ++ q.
Proof.
  unfold toStream. destruct elems as [|e r]; [reflexivity|].
  rewrite fold_join, join_concat. cbn [app]. reflexivity.
Qed.

(** Delimiter-free elements can be recovered. *)
Lemma split_unique (d : byte) a b r1 r2 : ~ In d a -> ~ In d b ->
  a ++ d :: r1 = b ++ d :: r2 -> a = b /\ r1 = r2.
Proof.
  revert b; induction a as [|c a IH]; intros [|x b] Ha Hb E; cbn in *; inversion E; subst; auto.
  - exfalso; auto.
  - exfalso; auto.
  - destruct (IH b) as [-> ->]; auto.
Qed.
Lemma join_inj (d : byte) : forall l1 l2, length l1 = length l2 ->
  Forall (fun x => ~ In d x) l1 -> Forall (fun x => ~ In d x) l2 ->
  join [d] l1 = join [d] l2 -> l1 = l2.
Proof.
  induction l1 as [|x l1 IH]; intros [|y l2] L H1 H2 E; try discriminate; auto.
  inversion H1; inversion H2; subst.
  destruct l1 as [|x' l1]; destruct l2 as [|y' l2]; try discriminate.
  - cbn in E. congruence.
  - cbn [join app] in E. change (x ++ d :: join [d] (x' :: l1) = y ++ d :: join [d] (y' :: l2)) in E.
    apply split_unique in E; auto. destruct E as [-> E]. f_equal. apply IH; auto.
Qed.
