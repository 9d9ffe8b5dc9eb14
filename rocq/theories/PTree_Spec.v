(** Vocabulary of the property tree claims, independent of the model's functions. *)
From Verif Require Import Bytes.
Open Scope nat_scope.

(** A path component: non-empty text without '/' and without NUL. *)
Definition segment (w : bytes) : Prop := w <> [] /\ ~ In 47%N w /\ ~ In 0%N w.
(** "/a/b", "/a/b/" and "a/b" for the path [a; b]. *)
Definition abs_text (p : list bytes) : bytes := concat (map (fun w => 47%N :: w) p).
Definition view_text (p : list bytes) : bytes := 47%N :: concat (map (fun w => w ++ [47%N]) p).
Fixpoint rel_text (p : list bytes) : bytes :=
  match p with [] => [] | [w] => w | w :: r => w ++ 47%N :: rel_text r end.
(** In a view with namespace text [ns], the key text [key] (possibly with one trailing '/') names the path [p]:
    relative keys continue the namespace, absolute keys ignore it. *)
Inductive denotes : bytes -> bytes -> list bytes -> Prop :=
| den_rel b k tail : Forall segment (b ++ k) -> k <> [] -> (tail = [] \/ tail = [47%N]) ->
    denotes (view_text b) (rel_text k ++ tail) (b ++ k)
| den_self b : Forall segment b -> b <> [] -> denotes (view_text b) [] b
| den_abs ns k tail : Forall segment k -> k <> [] -> (tail = [] \/ tail = [47%N]) ->
    denotes ns (abs_text k ++ tail) k.
(** [q] is a proper ancestor of [p]. *)
Definition ancestor (q p : list bytes) : Prop := exists r, r <> [] /\ p = q ++ r.
