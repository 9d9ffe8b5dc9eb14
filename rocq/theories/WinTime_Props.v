(** C142: clock readings as seconds and microseconds. *)
From Coq Require Import ZArith Lia Bool.
From Verif Require Import WinTime_Model.
Open Scope Z_scope.

(** ** Specification *)
(** a Windows clock counts 100 ns since 1601-01-01; the Unix epoch is 11644473600 s later *)
Definition ticks (ft : filetime) : Z := hi ft * 2 ^ 32 + lo ft.
Definition real_filetime (ft : filetime) : Prop := 0 <= hi ft < 2 ^ 32 /\ 0 <= lo ft < 2 ^ 32.
(** whole microseconds since 1970 *)
Definition unix_micros (ft : filetime) : Z := ticks ft / 10 - 11644473600 * 1000000.
(** a timeval denotes this many microseconds *)
Definition denotes (tv : timeval) (us : Z) : Prop := tv_sec tv * 1000000 + tv_usec tv = us /\ 0 <= tv_usec tv < 1000000.

Lemma or_add a b : 0 <= a -> 0 <= b < 2 ^ 32 -> Z.lor (a * 2 ^ 32) b = a * 2 ^ 32 + b.
Proof.
  intros Ha Hb. symmetry. rewrite <- Z.lxor_lor, <- Z.add_nocarry_lxor; auto.
  all: apply Z.bits_inj'; intros k Hk; rewrite Z.land_spec, Z.bits_0.
  all: destruct (Z.ltb_spec k 32); [rewrite Z.mul_pow2_bits_low by lia; reflexivity|].
  all: rewrite (Z.bits_above_log2 b k); [apply andb_false_r | lia |].
  all: destruct (Z.eq_dec b 0) as [-> | N0]; [cbn; lia|].
  all: apply Z.lt_le_trans with 32; [apply Z.log2_lt_pow2; lia | lia].
Qed.
Lemma read_value ft : real_filetime ft ->
  read_tv ft = mkTv (to_long (u64 (unix_micros ft) / 1000000)) (u64 (unix_micros ft) mod 1000000).
Proof.
  intros [Hh Hl]. unfold read_tv. cbv zeta. rewrite Z.lor_0_l, Z.shiftl_mul_pow2 by lia.
  change (2 ^ 32) with 4294967296 in *.
  assert (E1 : u64 (hi ft * 4294967296) = hi ft * 4294967296).
  { unfold u64. apply Z.mod_small. change (2 ^ 64) with 18446744073709551616. lia. }
  rewrite E1. pose proof (or_add (hi ft) (lo ft)) as O. change (2 ^ 32) with 4294967296 in O. rewrite O by lia.
  unfold unix_micros, ticks, delta_epoch. change (2 ^ 32) with 4294967296. change (11644473600 * 1000000) with 11644473600000000.
  set (t := u64 _). f_equal. unfold to_long.
  assert (0 <= t mod 1000000 < 1000000) by (apply Z.mod_pos_bound; lia).
  rewrite Z.mod_small; change (2 ^ 31) with 2147483648; change (2 ^ 32) with 4294967296; lia.
Qed.

(** *** C142 *)
(** The Windows gettimeofday is right exactly from 1970 until the seconds no longer fit in 31 bits (2038). *)
Theorem windows_time_exact : forall ft timezone daylight tv0 tz, real_filetime ft ->
  exists tv, fst (fst (gettimeofday ft timezone daylight (Some tv0) tz)) = Some tv /\
  (denotes tv (unix_micros ft) <-> 0 <= unix_micros ft < 2 ^ 31 * 1000000).
Proof.
  intros ft timezone daylight tv0 tz H. exists (read_tv ft). split; [reflexivity|].
  rewrite (read_value ft H). destruct H as [Hh Hl].
  assert (B : - (2 ^ 60) < unix_micros ft < 2 ^ 62).
  { unfold unix_micros, ticks. change (2 ^ 32) with 4294967296 in *. change (2 ^ 60) with 1152921504606846976. change (2 ^ 62) with 4611686018427387904.
    assert (0 <= (hi ft * 4294967296 + lo ft) / 10 < 1844674407370955162).
    { split; [apply Z.div_pos; lia | apply Z.div_lt_upper_bound; lia]. } lia. }
  change (2 ^ 60) with 1152921504606846976 in B. change (2 ^ 62) with 4611686018427387904 in B.
  unfold denotes. cbn [tv_sec tv_usec]. change (2 ^ 31 * 1000000) with 2147483648000000.
  set (us := unix_micros ft) in *. clearbody us. unfold u64. change (2 ^ 64) with 18446744073709551616.
  split.
  - intros [D _]. destruct (Z_lt_le_dec us 0) as [Neg | Pos].
    + exfalso. assert (M : us mod 18446744073709551616 = us + 18446744073709551616).
      { symmetry. apply Z.mod_unique with (-1); lia. }
      rewrite M in D. unfold to_long in D. change (2 ^ 31) with 2147483648 in D. change (2 ^ 32) with 4294967296 in D.
      set (w := us + 18446744073709551616) in *.
      pose proof (Z.div_mod w 1000000 ltac:(lia)) as DM. pose proof (Z.mod_pos_bound w 1000000 ltac:(lia)).
      pose proof (Z.div_mod (w / 1000000 + 2147483648) 4294967296 ltac:(lia)) as DM2.
      set (q := w / 1000000) in *. set (r := w mod 1000000) in *. set (k := (q + 2147483648) / 4294967296) in *.
      set (s := (q + 2147483648) mod 4294967296) in *.
      assert (W : w = us + 18446744073709551616) by reflexivity. clearbody q r k s w. lia.
    + split; [exact Pos|]. rewrite Z.mod_small in D by lia.
      pose proof (Z.div_mod us 1000000 ltac:(lia)) as DM.
      assert (S1 : to_long (us / 1000000) = us / 1000000) by lia.
      assert (to_long (us / 1000000) < 2147483648).
      { unfold to_long. change (2 ^ 31) with 2147483648. change (2 ^ 32) with 4294967296.
        pose proof (Z.mod_pos_bound (us / 1000000 + 2147483648) 4294967296 ltac:(lia)). lia. }
      pose proof (Z.mod_pos_bound us 1000000 ltac:(lia)). lia.
  - intros [P Q]. rewrite Z.mod_small by lia.
    pose proof (Z.div_mod us 1000000 ltac:(lia)) as DM. pose proof (Z.mod_pos_bound us 1000000 ltac:(lia)).
    assert (to_long (us / 1000000) = us / 1000000).
    { unfold to_long. change (2 ^ 31) with 2147483648. change (2 ^ 32) with 4294967296. rewrite Z.mod_small; lia. }
    lia.
Qed.
Print Assumptions windows_time_exact.

(** Only what is asked for is written: nothing through a null pointer; and the minutes west of Greenwich. *)
Theorem windows_time_outputs : forall ft minutes daylight tv tz,
  let '(o1, o2, r) := gettimeofday ft (60 * minutes) daylight tv tz in
  r = 0 /\ (tv = None <-> o1 = None) /\ (tz = None <-> o2 = None) /\
  (forall z, o2 = Some z -> minuteswest z = minutes /\ dsttime z = daylight).
Proof.
  intros ft minutes daylight tv tz. unfold gettimeofday.
  assert (Q : Z.quot (60 * minutes) 60 = minutes) by (rewrite Z.mul_comm; apply Z.quot_mul; lia). rewrite Q.
  destruct tv, tz; (split; [reflexivity|]); (split; [split; congruence|]); (split; [split; congruence|]); intros z H; try congruence;
    injection H as <-; cbn [minuteswest dsttime]; auto.
Qed.
Print Assumptions windows_time_outputs.

(** 2038-01-19 03:14:08 UTC: the year 1901 *)
Theorem windows_time_refuted : exists ft, real_filetime ft /\ unix_micros ft = 2147483648 * 1000000 /\
  tv_sec (read_tv ft) = - 2147483648.
Proof.
  exists (mkFt (137919572480000000 / 4294967296) (137919572480000000 mod 4294967296)).
  split; [|split]; vm_compute; auto. repeat split; intros; discriminate.
Qed.
Print Assumptions windows_time_refuted.

(** ptimeToTimeval has no defined result for any time *)
Theorem ptimeToTimeval_refuted : forall us tv, ptimeToTimeval us <> Returned tv.
Proof. intros us tv. unfold ptimeToTimeval. cbv zeta. intros H. discriminate H. Qed.
Print Assumptions ptimeToTimeval_refuted.

(** a concrete reading: 2020-01-01 00:00:00.5 *)
Example ex_2020 : let t := (11644473600 + 1577836800) * 10000000 + 5000000 in
  let ft := mkFt (t / 4294967296) (t mod 4294967296) in
  real_filetime ft /\ read_tv ft = mkTv 1577836800 500000 /\ unix_micros ft = 1577836800500000.
Proof. vm_compute. repeat split; intros; discriminate. Qed.
