(** Vocabulary of the value store claims. *)
From Verif Require Import PTree_Model PTree_Spec PTree_Proofs ValueStore_Model.
Open Scope nat_scope.

(** The text stored at a key, as a user thinks of it: a property tree has what its getter returns, a layered store what the
    first layer having the key has, a prefix is added or removed. *)
Fixpoint lookup (w : heap) (s : store) (path : bytes) : option bytes :=
  match s with
  | PT loc ns => match getX parse_string (hget w loc) ns path with Ok d => Some d | _ => None end
  | Flat f => f path
  | Layered l => (fix first l := match l with [] => None | v :: r => match lookup w v path with Some d => Some d | None => first r end end) l
  | Prefixed ADD p v => lookup w v (p ++ path)
  | Prefixed REMOVE p v => match drop_prefix p path with Some r => lookup w v r | None => None end
  | Verbose v => lookup w v path
  end.
(** The stores and keys the claims are about; each excluded case is the subject of a refuted theorem.
    - a property tree view as its constructors make it, and text without NUL;
    - a layered store has at least one layer;
    - the uninitialised variable read by an adding prefix happens to be true;
    - a removing prefix p/ is not asked for exactly p. *)
Fixpoint regular (junk : bool) (s : store) (path : bytes) : Prop :=
  match s with
  | PT _ ns => is_view ns /\ ~ In 0%N ns /\ ~ In 0%N path
  | Flat _ => True
  | Layered l => l <> [] /\ (fix all l := match l with [] => True | v :: r => regular junk v path /\ all r end) l
  | Prefixed ADD p v => junk = true /\ regular junk v (p ++ path)
  | Prefixed REMOVE p v => match drop_prefix p path with Some r => regular junk v r | None => path ++ [47%N] <> p end
  | Verbose v => regular junk v path
  end.
(** Reading with a default ends in a store that can take it: the last layer; a key with the prefix to remove. *)
Fixpoint takes_default (s : store) (path : bytes) : Prop :=
  match s with
  | PT _ _ => True
  | Flat _ => True
  | Layered l => (fix lst l := match l with [] => True | [v] => takes_default v path | _ :: r => lst r end) l
  | Prefixed ADD p v => takes_default v (p ++ path)
  | Prefixed REMOVE p v => exists r, path = p ++ r /\ takes_default v r
  | Verbose v => takes_default v path
  end.
(** All trees the store refers to exist. *)
Fixpoint valid (w : heap) (s : store) : Prop :=
  match s with
  | PT loc _ => loc < length w
  | Flat _ => True
  | Layered l => (fix all l := match l with [] => True | v :: r => valid w v /\ all r end) l
  | Prefixed _ _ v => valid w v
  | Verbose v => valid w v
  end.
(** The store without the logging wrappers. *)
Fixpoint quiet (s : store) : store :=
  match s with
  | PT l ns => PT l ns
  | Flat f => Flat f
  | Layered l => Layered (map quiet l)
  | Prefixed m p v => Prefixed m p (quiet v)
  | Verbose v => quiet v
  end.
(** Two handles that read and write the same thing. *)
Definition handle_equiv {A} (tr : bytes -> option A) (pr : A -> bytes) (h1 h2 : handle A) : Prop :=
  isUpdateable h1 = isUpdateable h2 /\
  forall w, handle_get tr w h1 = handle_get tr w h2 /\ forall nd v, handle_update pr nd w h1 v = handle_update pr nd w h2 v.
Definition same_result {A} (tr : bytes -> option A) (pr : A -> bytes) (r1 r2 : heap * vres (handle A)) : Prop :=
  fst r1 = fst r2 /\
  match snd r1, snd r2 with
  | VOk h1, VOk h2 => handle_equiv tr pr h1 h2
  | VThrow, VThrow => True
  | VUndef, VUndef => True
  | _, _ => False
  end.
(** [s2] at [k2] behaves as [s1] at [k1]: hasKey and all typed reads, with and without default, in every heap. *)
Definition same_reads (junk : bool) (s1 : store) (k1 : bytes) (s2 : store) (k2 : bytes) : Prop :=
  forall w, hasKey junk w s1 k1 = hasKey junk w s2 k2 /\
    forall A (tr : bytes -> option A) pr V0 def, same_result tr pr (get junk tr V0 w s1 k1 def) (get junk tr V0 w s2 k2 def).
(** Stores without removing prefixes (and with an initialised flag). *)
Fixpoint plain (junk : bool) (s : store) : Prop :=
  match s with
  | PT _ ns => is_view ns
  | Flat _ => junk = true
  | Layered l => (fix all l := match l with [] => True | v :: r => plain junk v /\ all r end) l
  | Prefixed ADD _ _ => junk = true
  | Prefixed REMOVE _ _ => False
  | Verbose v => plain junk v
  end.
