(** Model of sm_value_store: include/sm/value_store/*.hpp and src/*.cpp.  The stores are immutable objects that refer to
    shared property trees; the trees live in a heap.  Saving and loading are in VsFile_Model.  Not modelled: the text of log lines. *)
From Verif Require Export PTree_Model.
From Verif Require Import Strings_Model.
Open Scope nat_scope.

(** [VThrow]: any exception; [VUndef]: undefined behaviour or a failed assertion. *)
Inductive vres (A : Type) := VOk (a : A) | VThrow | VUndef.
Arguments VOk {A}. Arguments VThrow {A}. Arguments VUndef {A}.
Definition of_res {A} (r : res A) : vres A := match r with Ok a => VOk a | Undefined => VUndef | _ => VThrow end.

Inductive mode := ADD | REMOVE.
(** The store objects:
    - PT: PropertyTreeValueStore (a PropertyTree view: tree and _namespace);
    - Flat: a user-defined read-only store that does not support children (isChildSupported() = false), the case
      ValueStore.cpp:24-26 is written for;
    - Layered: LayeredValueStore (its vector; `add` never stores a null pointer, LayeredValueStore.hpp:22-23);
    - Prefixed: PrefixedValueStore; [prefix] is the member prefix_, with the '/' the constructor appends
      (PrefixedValueStore.hpp:15);
    - Verbose: VerboseValueStoreT. *)
Inductive store :=
| PT (loc : nat) (ns : bytes)
| Flat (f : bytes -> option bytes)
| Layered (l : list store)
| Prefixed (m : mode) (prefix : bytes) (s : store)
| Verbose (s : store).
Definition mkPrefixed (m : mode) (prefix : bytes) (s : store) : store := Prefixed m (prefix ++ [SLASH]) s.

Definition heap := list ptree.
Definition hget (w : heap) (loc : nat) : ptree := nth loc w pempty.
Fixpoint hset (w : heap) (loc : nat) (t : ptree) : heap :=
  match w, loc with
  | [], _ => []
  | _ :: r, O => t :: r
  | x :: r, S n => x :: hset r n t
  end.
(** a fresh tree *)
Definition halloc (w : heap) (t : ptree) : heap * nat := (w ++ [t], length w).

(** applyPrefix (PrefixedValueStore.cpp:47-70).  The result and *isPossiblePtr; without a pointer an impossible path throws.
    In ADD mode *isPossiblePtr is not assigned: the caller's uninitialised variable [junk] is read. *)
Definition strip_prefix (prefix path : bytes) : option bytes :=
  if (length prefix <=? length path) && bytes_eqb (firstn (length prefix) path) prefix
  then Some (skipn (length prefix) path) else None.
Definition applyPrefix_ptr (junk : bool) (m : mode) (prefix path : bytes) : bytes * bool :=
  match m with
  | ADD => (prefix ++ path, junk)
  | REMOVE => match strip_prefix prefix path with
              | Some r => (r, true)
              | None => ([], (length path =? length prefix - 1) && bytes_eqb (path ++ [SLASH]) prefix)
              end
  end.
Definition applyPrefix (m : mode) (prefix path : bytes) : vres bytes :=
  match m with
  | ADD => VOk (prefix ++ path)
  | REMOVE => match strip_prefix prefix path with Some r => VOk r | None => VThrow end
  end.

(** hasKey (ValueStore.cpp:40-48, PrefixedValueStore.cpp:23-27, PropertyTreeValueStore.cpp:85-87, VerboseValueStore.cpp:50-52) *)
Section Stores.
Variable junk : bool.
Fixpoint hasKey (w : heap) (s : store) (path : bytes) : bool :=
  match s with
  | PT loc ns => doesKeyExist (hget w loc) ns path
  | Flat f => match f path with Some _ => true | None => false end
  | Layered l => (fix any l := match l with [] => false | v :: r => if hasKey w v path then true else any r end) l
  | Prefixed m prefix v => let '(p, possible) := applyPrefix_ptr junk m prefix path in possible && hasKey w v p
  | Verbose v => hasKey w v path
  end.

(** ValueHandle (ValueStore.hpp:18-57), PropertyTreeValueStoreValueHanlder (PropertyTreeValueStore.cpp:43-59).
    A handle into a property tree keeps its own view of it. *)
Inductive handle (A : Type) := HConst (v : A) | HPt (path : bytes) (loc : nat) (ns : bytes).
Arguments HConst {A}. Arguments HPt {A}.

Section Typed.
Context {A : Type} (tr : bytes -> option A) (pr : A -> bytes) (V0 : A).
Definition handle_get (w : heap) (h : handle A) : vres A :=
  match h with HConst v => VOk v | HPt path loc ns => of_res (getX tr (hget w loc) ns path) end.
Definition isUpdateable (h : handle A) : bool := match h with HConst _ => false | HPt _ _ _ => true end.
(** update on a constant is assert(false) (ValueStore.hpp:32): with NDEBUG nothing happens *)
Definition handle_update (ndebug : bool) (w : heap) (h : handle A) (v : A) : heap * vres unit :=
  match h with
  | HConst _ => (w, if ndebug then VOk tt else VUndef)
  | HPt path loc ns => match setX pr (hget w loc) ns path v with
                       | Ok t => (hset w loc t, VOk tt)
                       | Undefined => (w, VUndef)
                       | _ => (w, VThrow)
                       end
  end.
(** getFromPt (PropertyTreeValueStore.cpp:61-68).  getterD is a pointer to a const member function (20-42), so in spite of the const_cast the
    const getter is called: the default is not stored.  The handle is a constant. *)
Definition getFromPt (w : heap) (loc : nat) (ns path : bytes) (def : option A) : heap * vres (handle A) :=
  match def with
  | Some d => (w, VOk (HConst (getX_default tr (hget w loc) ns path d)))
  | None => match getX tr (hget w loc) ns path with
            | Ok _ => (w, VOk (HPt path loc ns))
            | Undefined => (w, VUndef)
            | _ => (w, VThrow)
            end
  end.
(** getX (ValueStore.cpp:28-39, PrefixedValueStore.cpp:11-22, VerboseValueStore.cpp:33-48); getFromLayers (50-64): all but
    the last layer are asked hasKey first and get no default; without layers V() is returned *)
Fixpoint get (w : heap) (s : store) (path : bytes) (def : option A) : heap * vres (handle A) :=
  match s with
  | PT loc ns => getFromPt w loc ns path def
  | Flat f => match f path with
              | Some x => (w, match tr x with Some v => VOk (HConst v) | None => VThrow end)
              | None => (w, match def with Some d => VOk (HConst d) | None => VThrow end)
              end
  | Layered l =>
      (fix layers (l : list store) : heap * vres (handle A) :=
         match l with
         | [] => (w, VOk (HConst V0))
         | [v] => get w v path def
         | v :: r => if hasKey w v path then get w v path None else layers r
         end) l
  | Prefixed m prefix v => match applyPrefix m prefix path with
                           | VOk p => get w v p def
                           | VThrow => (w, VThrow)
                           | VUndef => (w, VUndef)
                           end
  | Verbose v => match get w v path def with
                 | (w', VOk h) => match handle_get w' h with VOk _ => (w', VOk h) | VThrow => (w', VThrow) | VUndef => (w', VUndef) end
                 | x => x
                 end
  end.
(** addX of an extendible store (PropertyTreeValueStore.cpp:103-121, VerboseValueStore.cpp:96-107) *)
Fixpoint add (w : heap) (s : store) (path : bytes) (v : A) : heap * vres (handle A) :=
  match s with
  | PT loc ns => match setX pr (hget w loc) ns path v with
                 | Ok t => (hset w loc t, VOk (HConst v))
                 | Undefined => (w, VUndef)
                 | _ => (w, VThrow)
                 end
  | Verbose s => add w s path v
  | _ => (w, VThrow)     (* not an ExtendibleValueStore *)
  end.
End Typed.

(** isChildSupported (ValueStore.hpp:77, ValueStore.cpp:66-71, PrefixedValueStore.cpp:72-79, VerboseValueStore.cpp:76-79) *)
Fixpoint isChildSupported (s : store) : bool :=
  match s with
  | PT _ _ => true
  | Flat _ => false
  | Layered l => (fix all l := match l with [] => true | v :: r => if isChildSupported v then all r else false end) l
  | Prefixed REMOVE _ v => isChildSupported v
  | Prefixed ADD _ _ => true
  | Verbose v => isChildSupported v
  end.
(** the empty store of ValueStoreRef() (ValueStore.cpp:119-120) *)
Definition fresh (w : heap) : heap * store := let '(w', loc) := halloc w pempty in (w', PT loc (view_root [])).
(** getChild (ValueStore.cpp:72-88, PrefixedValueStore.cpp:29-40, PropertyTreeValueStore.cpp:99-101,
    VerboseValueStore.cpp:54-59) *)
Fixpoint getChild (w : heap) (s : store) (key : bytes) : heap * vres store :=
  match s with
  | PT loc ns => (w, VOk (PT loc (view_child ns key)))
  | Flat _ => (w, VThrow)
  | Layered l =>
      let '(w', r) :=
        (fix go (w : heap) (l : list store) : heap * vres (list store) :=
           match l with
           | [] => (w, VOk [])
           | v :: r => match getChild w v key with
                       | (w1, VOk c) => match go w1 r with
                                        | (w2, VOk cs) => (w2, VOk (c :: cs))
                                        | x => x
                                        end
                       | (w1, VThrow) => (w1, VThrow)
                       | (w1, VUndef) => (w1, VUndef)
                       end
           end) w l in
      (w', match r with VOk [c] => VOk c | VOk cs => VOk (Layered cs) | VThrow => VThrow | VUndef => VUndef end)
  | Prefixed m prefix v =>
      let '(p, possible) := applyPrefix_ptr junk m prefix key in
      if possible then
        match m with
        | REMOVE => if bytes_eqb p [] || bytes_eqb p [SLASH] then (w, VOk v) else (w, VOk (mkPrefixed m p v))
        | ADD => (w, VOk (mkPrefixed m p v))
        end
      else let '(w', s') := fresh w in (w', VOk s')
  | Verbose v => match getChild w v key with
                 | (w', VOk c) => (w', VOk (Verbose c))
                 | x => x
                 end
  end.
(** ValueStoreRef::getChild (ValueStore.cpp:20-27) *)
Definition ref_getChild (w : heap) (s : store) (key : bytes) : heap * vres store :=
  if isChildSupported s then getChild w s key else (w, VOk (mkPrefixed ADD key s)).

(** getChildren (PropertyTreeValueStore.cpp:89-97: copies of the subtrees; PrefixedValueStore.cpp:41-43;
    VerboseValueStore.cpp:81-89).  Layered stores (ValueStore.cpp:90-114) are left out: None. *)
Fixpoint alloc_all (w : heap) (l : list (bytes * ptree)) : heap * list (bytes * store) :=
  match l with
  | [] => (w, [])
  | (k, t) :: r => let '(w1, loc) := halloc w t in let '(w2, cs) := alloc_all w1 r in (w2, (k, PT loc (view_root [])) :: cs)
  end.
Fixpoint children_via (f : heap -> bytes -> heap * vres store) (w : heap) (keys : list bytes) : heap * vres (list (bytes * store)) :=
  match keys with
  | [] => (w, VOk [])
  | k :: r => match f w k with
              | (w1, VOk c) => match children_via f w1 r with (w2, VOk cs) => (w2, VOk ((k, c) :: cs)) | x => x end
              | (w1, VThrow) => (w1, VThrow)
              | (w1, VUndef) => (w1, VUndef)
              end
  end.
Fixpoint getChildren_vs (oob : byte) (w : heap) (s : store) : option (heap * vres (list (bytes * store))) :=
  match s with
  | PT loc ns => Some (match getChildren oob (hget w loc) ns with
                       | Ok ks => let '(w', cs) := alloc_all w ks in (w', VOk cs)
                       | Undefined => (w, VUndef)
                       | _ => (w, VThrow)
                       end)
  | Flat _ => Some (w, VThrow)
  | Layered _ => None
  | Prefixed _ _ _ => Some (w, VThrow)
  | Verbose v => match getChildren_vs oob w v with
                 | Some (w', VOk cs) => Some (children_via (fun w k => getChild w (Verbose v) k) w' (map fst cs))
                 | x => x
                 end
  end.
(** isEmpty (ValueStore.cpp:16-18, PropertyTreeValueStore.cpp:262-267): the Boost tree's root has no children *)
Definition isEmpty (w : heap) (s : store) : bool :=
  match s with PT loc _ => match pkids (hget w loc) with [] => true | _ => false end | _ => false end.
(** isExtendible (ValueStore.hpp:86-88, 229-231): VerboseValueStore vs VerboseExtendibleValueStore is not distinguished *)

(** findPathAndAlert (ValueStore.cpp:126-149): the key and the alerts raised; [has] is hasKey of the store *)
Definition BANG : byte := 33%N.
Definition deprecated_text (pp front : bytes) : bytes :=
  str "Property name '" ++ pp ++ str "' is deprecated! Use " ++ front ++ str " instead.".
Fixpoint find_path (has : bytes -> bool) (front : bytes) (l : list bytes) : bytes * list (bytes * bytes) :=
  match l with
  | [] => (front, [])
  | p :: r =>
      match p with
      | c :: pp =>
          if N.eqb c BANG then
            if has pp then (pp, [(pp, match r with m :: _ => m | [] => deprecated_text pp front end)])
            else find_path has front r
          else if has p then (p, []) else find_path has front r
      | [] => if has p then (p, []) else find_path has front r
      end
  end.
Definition findPathAndAlert (has : bytes -> bool) (paths : list bytes) : vres (bytes * list (bytes * bytes)) :=
  match paths with
  | [] => VUndef
  | front :: _ => VOk (find_path has front paths)
  end.

(** asPropertyTree (PropertyTreeValueStore.cpp:136-228): translateKey, and the qualified keys of ConstPropertyTree *)
Definition translateKey (key : bytes) : bytes :=
  match key with c :: r => if N.eqb c SLASH then r else key | [] => key end.
Section TypedPT.
Context {A : Type} (tr : bytes -> option A) (pr : A -> bytes) (V0 : A).
Definition asPT_get (w : heap) (s : store) (ns key : bytes) (def : option A) : heap * vres A :=
  match get tr V0 w s (translateKey (buildQualifiedKeyName ns key)) def with
  | (w', VOk h) => (w', handle_get tr w' h)
  | (w', VThrow) => (w', VThrow)
  | (w', VUndef) => (w', VUndef)
  end.
End TypedPT.
Definition asPT_doesKeyExist (w : heap) (s : store) (ns key : bytes) : bool :=
  hasKey w s (translateKey (buildQualifiedKeyName ns key)).
End Stores.
Arguments HConst {A}. Arguments HPt {A}.
