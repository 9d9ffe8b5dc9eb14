(** Decimal bounds of pi, from the standard library's Machin-like series, computed with rational numbers. *)
From Coq Require Import Reals Lra Lia QArith Qreals Ratan Machin.
Open Scope R_scope.

Fixpoint qpow (x : Q) (n : nat) : Q := match n with O => 1%Q | S m => (x * qpow x m)%Q end.
Lemma qpow_R x n : Q2R (qpow x n) = Q2R x ^ n.
Proof. induction n as [|n IH]; cbn [qpow pow]; [apply RMicromega.Q2R_1|]. now rewrite Q2R_mult, IH. Qed.
Definition qatan (x : Q) (n : nat) : Q := (qpow x (2 * n + 1) * (1 # Pos.of_nat (2 * n + 1)))%Q.
Lemma qatan_R x n : Q2R (qatan x n) = Ratan_seq (Q2R x) n.
Proof.
  unfold qatan, Ratan_seq. rewrite Q2R_mult, qpow_R. unfold Rdiv. f_equal. unfold Q2R. cbn [Qnum Qden]. rewrite Rmult_1_l. f_equal.
  rewrite INR_IZR_INZ. f_equal. rewrite <- positive_nat_Z, Nat2Pos.id by lia. reflexivity.
Qed.
Definition qterm (n : nat) : Q := (qpow (-1) n * (2 * qatan (1 # 3) n + qatan (1 # 7) n))%Q.
Lemma qterm_R n : Q2R (qterm n) = tg_alt PI_2_3_7_tg n.
Proof.
  unfold qterm, tg_alt, PI_2_3_7_tg. rewrite Q2R_mult, qpow_R, Q2R_plus, Q2R_mult, !qatan_R.
  replace (Q2R (-1)) with (-1) by (unfold Q2R; cbn; lra). replace (Q2R 2) with 2 by (unfold Q2R; cbn; lra).
  replace (Q2R (1 # 3)) with (/ 3) by (unfold Q2R; cbn; lra). replace (Q2R (1 # 7)) with (/ 7) by (unfold Q2R; cbn; lra). reflexivity.
Qed.
Fixpoint qsum (n : nat) : Q := match n with O => qterm 0 | S m => Qred (qsum m + qterm (S m)) end.
Lemma qsum_R n : Q2R (qsum n) = sum_f_R0 (tg_alt PI_2_3_7_tg) n.
Proof.
  induction n as [|n IH]; [apply qterm_R|]. cbn [qsum]. rewrite (Qeq_eqR _ _ (Qred_correct _)), Q2R_plus, IH, qterm_R. reflexivity.
Qed.
Theorem PI_decimal : 314159265358979323846 / 100000000000000000000 <= PI <= 314159265358979323847 / 100000000000000000000.
Proof.
  destruct (PI_2_3_7_ineq 11) as [L U]. rewrite <- !qsum_R in L, U.
  assert (A : ((314159265358979323846 # 400000000000000000000) <= qsum (S (2 * 11)))%Q) by (vm_compute; discriminate).
  assert (B : (qsum (2 * 11) <= 314159265358979323847 # 400000000000000000000)%Q) by (vm_compute; discriminate).
  apply Qle_Rle in A, B. unfold Q2R at 1 in A. unfold Q2R at 2 in B. cbn [Qnum Qden] in A, B. lra.
Qed.
