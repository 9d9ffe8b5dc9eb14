(** What the timestamp corrector is documented to maintain (Zhang, Liu, Xia: the lower convex hull
    of the samples), stated on samples = pairs (remote time, local time) of exact numbers. *)
From Coq Require Import List QArith Sorted.
Import ListNotations.
Open Scope Q_scope.

Definition sample := (Q * Q)%type.
(** The line through two samples, evaluated at x. *)
Definition line (a b : sample) (x : Q) : Q := snd a + (snd b - snd a) / (fst b - fst a) * (x - fst a).
Definition slope (a b : sample) : Q := (snd b - snd a) / (fst b - fst a).
(** b directly follows a in the list. *)
Definition next_in (h : list sample) (a b : sample) : Prop := exists l r, h = l ++ a :: b :: r.

Record LowerHull (samples h : list sample) : Prop := {
  lh_subset : forall p, In p h -> In p samples;                              (* retained points are samples *)
  lh_sorted : StronglySorted (fun a b => fst a < fst b) h;                   (* strictly increasing remote times *)
  lh_first : hd_error h = hd_error samples;                                  (* from the first ... *)
  lh_last : forall d, last h d = last samples d;                             (* ... to the latest sample *)
  lh_convex : forall a b c, (exists l r, h = l ++ a :: b :: c :: r) -> slope a b <= slope b c;
  lh_below : forall a b s, next_in h a b -> In s samples -> line a b (fst s) <= snd s;
                                                             (* every edge, extended to a line, is below every sample *)
  lh_covers : forall s, In s samples -> (length h >= 2)%nat ->               (* and the edges cover all samples *)
     exists a b, next_in h a b /\ fst a <= fst s <= fst b
}.

(** The accepted samples of a sequence of offered samples: those whose remote time is greater than that
    of the last accepted one. *)
Definition acceptable (A : list sample) (remote : Q) : Prop := forall s, In s A -> fst s < remote.
Definition acceptable_dec A remote : {acceptable A remote} + {~ acceptable A remote}.
Proof.
  induction A as [|a A IH].
  - left. intros s [].
  - destruct (Qlt_le_dec (fst a) remote) as [H|H].
    + destruct IH as [K|K].
      * left. intros s [<-|Hs]; auto.
      * right. intros K2. apply K. intros s Hs. apply K2. right; auto.
    + right. intros K. apply (Qlt_not_le _ _ (K a (or_introl eq_refl))). exact H.
Defined.
Definition offer (A : list sample) (s : sample) : list sample := if acceptable_dec A (fst s) then A ++ [s] else A.
Definition accepted (offers : list sample) : list sample := fold_left offer offers [].
