(** Shared vocabulary: byte strings as lists of [N] (each < 256) and readable literals. *)
From Coq Require Export Ascii String.
From Coq Require Export List NArith ZArith Lia Bool.
Export ListNotations.

(** A byte / C++ [char] taken as unsigned.  Well-formedness (< 256) is stated where needed. *)
Notation byte := N (only parsing).
Notation bytes := (list N) (only parsing).

(** Literal notation helper: [str "abc"] is the byte list of the ASCII text. *)
Fixpoint str (s : string) : bytes :=
  match s with
  | EmptyString => []
  | String c r => N_of_ascii c :: str r
  end.

Definition wf_bytes (l : bytes) : Prop := Forall (fun b => (b < 256)%N) l.

Fixpoint bytes_eqb (a b : bytes) : bool :=
  match a, b with
  | [], [] => true
  | x :: a', y :: b' => N.eqb x y && bytes_eqb a' b'
  | _, _ => false
  end.

Lemma bytes_eqb_eq a b : bytes_eqb a b = true <-> a = b.
Proof.
  revert b; induction a as [|x a IH]; intros [|y b]; simpl; try (split; congruence).
  rewrite andb_true_iff, N.eqb_eq, IH. split; [intros [-> ->]; reflexivity|].
  intros H; inversion H; auto.
Qed.

Lemma bytes_eqb_refl a : bytes_eqb a a = true.
Proof. apply bytes_eqb_eq; reflexivity. Qed.

(** All 256 byte values, for finite sweeps lifted by [forallb_forall]. *)
Definition all_bytes : bytes := List.map N.of_nat (seq 0 256).

Lemma in_all_bytes b : (b < 256)%N -> In b all_bytes.
Proof.
  intros H. unfold all_bytes. apply in_map_iff. exists (N.to_nat b). split.
  - apply N2Nat.id.
  - apply in_seq. lia.
Qed.

(** ASCII character classes (C locale [<cctype>]). *)
Definition is_digit (c : N) : bool := (48 <=? c)%N && (c <=? 57)%N.
Definition is_upper (c : N) : bool := (65 <=? c)%N && (c <=? 90)%N.
Definition is_lower (c : N) : bool := (97 <=? c)%N && (c <=? 122)%N.
Definition is_alpha (c : N) : bool := is_upper c || is_lower c.
Definition is_alnum (c : N) : bool := is_alpha c || is_digit c.
Definition is_space (c : N) : bool := ((9 <=? c)%N && (c <=? 13)%N) || (c =? 32)%N.
Definition to_lower (c : N) : N := if is_upper c then (c + 32)%N else c.
Definition is_xdigit (c : N) : bool :=
  is_digit c || ((65 <=? c)%N && (c <=? 70)%N) || ((97 <=? c)%N && (c <=? 102)%N).
