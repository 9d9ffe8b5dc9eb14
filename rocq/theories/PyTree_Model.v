(** Model of property trees as Python sees them: sm_python/src/exportPropertyTree.cpp:5-92 (class_<ConstPropertyTree>, class_<PropertyTree>,
    class_<BoostPropertyTree>), over PTree_Model, DoubleText_Model and the file formats.  A Python object of these classes is a class, the shared
    implementation it points to (_imp, a shared_ptr: sm_property_tree/include/sm/PropertyTree.hpp:127) and its _namespace.  A program is a list of calls;
    an exception does not end it (as in a try block).  The file flags are not exported and keep their defaults (BoostPropertyTree.cpp:10-11).
    Boost.Python: a method is looked up in the class and then in its bases; the wrapper then needs the exact number of arguments and a converter for each,
    the object itself included, and raises ArgumentError otherwise; integers that do not fit int or double raise OverflowError; C++ exceptions become
    RuntimeError.  Not modelled: keyword arguments, subclasses written in Python, strings that are not UTF-8, BoostPropertyTreeLoader (PTree_Loader_Model). *)
From Verif Require Export Bytes.
From Verif Require Import Strings_Model Float64 PTree_Model DoubleText_Model ValueStore_Model PyStore_Model PTreeFile_Model InfoFile_Model IniFile_Model JsonFile_Model XmlFile_Model.
Open Scope nat_scope.

Inductive cls := CConst | CTree | CBoost.
Record obj := mkO { ocls : cls; oloc : nat; ons : bytes }.
(** arguments: an object of ours, or another Python value; None *)
Inductive pyarg := AObj (n : nat) | AVal (v : pyval) | ANone.
Inductive exc := ArgumentError | AttributeError | OverflowError | RuntimeError.
(** how a call ends; [PyObj n]: the new object n; [Ub]: undefined behaviour; [Include]: the file includes others, not followed *)
Inductive answer := Nothing | Value (v : pyval) | PyObj (n : nat) | Raised (e : exc) | Ub | Include.
(** the objects, the implementations they share, the files *)
Record world := mkW { objs : list obj; heap : list ptree; files : fsys }.

(** is the class one of ... (bases<ConstPropertyTree>, bases<PropertyTree>: lines 53, 65) *)
Definition is_tree (c : cls) : bool := match c with CConst => false | _ => true end.
Definition is_boost (c : cls) : bool := match c with CBoost => true | _ => false end.

Inductive meth := MGetChild | MGet (k : kind) | MGetDefault (k : kind) | MExists | MGetOrCreate (k : kind) | MSet (k : kind)
  | MLoad (f : format) | MSave (f : format) | MUpdate | MUpdateWithEmpty | MUpdateOrCreate.
(** the attributes: ConstPropertyTree (42-51) *)
Definition const_methods : list (bytes * meth) :=
  [(str "getChild", MGetChild); (str "getInt", MGet KInt); (str "getIntDefault", MGetDefault KInt); (str "getString", MGet KStr);
   (str "getStringDefault", MGetDefault KStr); (str "getBool", MGet KBool); (str "getBoolDefault", MGetDefault KBool);
   (str "getDouble", MGet KFloat); (str "getDoubleDefault", MGetDefault KFloat); (str "doesKeyExist", MExists)].
(** PropertyTree (53-63) *)
Definition tree_methods : list (bytes * meth) :=
  [(str "getChild", MGetChild); (str "getOrCreateInt", MGetOrCreate KInt); (str "getOrCreateString", MGetOrCreate KStr);
   (str "getOrCreatetBool", MGetOrCreate KBool); (str "getOrCreateDouble", MGetOrCreate KFloat);
   (str "setInt", MSet KInt); (str "setBool", MSet KBool); (str "setString", MSet KStr); (str "setDouble", MSet KFloat)].
(** BoostPropertyTree (65-90) *)
Definition boost_methods : list (bytes * meth) :=
  [(str "loadXml", MLoad XML); (str "saveXml", MSave XML); (str "loadIni", MLoad INI); (str "saveIni", MSave INI);
   (str "loadInfo", MLoad INFO); (str "saveInfo", MSave INFO);
   (str "update", MUpdate); (str "updateWithEmptyUpdates", MUpdateWithEmpty); (str "updateOrCreate", MUpdateOrCreate)].
Fixpoint assoc (l : list (bytes * meth)) (n : bytes) : option meth :=
  match l with [] => None | (k, m) :: r => if bytes_eqb k n then Some m else assoc r n end.
Definition orelse {A} (a b : option A) : option A := match a with Some _ => a | None => b end.
(** attribute lookup along the bases *)
Definition attribute (c : cls) (n : bytes) : option meth :=
  match c with
  | CConst => assoc const_methods n
  | CTree => orelse (assoc tree_methods n) (assoc const_methods n)
  | CBoost => orelse (assoc boost_methods n) (orelse (assoc tree_methods n) (assoc const_methods n))
  end.

(** Boost.Python's converters (builtin_converters.cpp) *)
Inductive conv (A : Type) := Got (a : A) | Bad | Over.
Arguments Got {A}. Arguments Bad {A}. Arguments Over {A}.
Definition to_str (a : pyarg) : conv bytes := match a with AVal (PyStr s) => Got s | _ => Bad end.
Definition to_bool (a : pyarg) : conv bool :=
  match a with AVal (PyBool b) => Got b | AVal (PyInt z) => Got (negb (z =? 0)%Z) | ANone => Got false | _ => Bad end.
Definition to_int (a : pyarg) : conv Z :=
  match a with AVal (PyInt z) => if int_arg z then Got z else Over | AVal (PyBool b) => Got (if b then 1%Z else 0%Z) | _ => Bad end.
Definition to_double (a : pyarg) : conv f64 :=
  match a with
  | AVal (PyFloat x) => Got x
  | AVal (PyInt z) => if is_finite (fofZ z) then Got (fofZ z) else Over
  | AVal (PyBool b) => Got (fofZ (if b then 1 else 0))
  | _ => Bad
  end.

(** effect of a call on the implementation and what it returns *)
Definition of_get {A} (mk : A -> pyval) (r : res A) : answer := match r with Ok a => Value (mk a) | Undefined => Ub | _ => Raised RuntimeError end.
Definition of_set (t : ptree) (r : res ptree) : ptree * answer := match r with Ok t' => (t', Nothing) | Undefined => (t, Ub) | _ => (t, Raised RuntimeError) end.
Definition of_update (r : ptree * res unit) : ptree * answer := match r with (t, Ok _) => (t, Nothing) | (t, Undefined) => (t, Ub) | (t, _) => (t, Raised RuntimeError) end.

Section PyTree.
  (** [prec]: digits printed for a double (DoubleText_Model) *)
  Variable prec : nat.
  (** the four types: texts, and the converter of the argument *)
  Definition with_kind {R} (k : kind) (f : forall A, (bytes -> option A) -> (A -> bytes) -> (pyarg -> conv A) -> (A -> pyval) -> R) : R :=
    match k with
    | KStr => f bytes parse_string print_string to_str PyStr
    | KBool => f bool parse_bool print_bool to_bool PyBool
    | KInt => f Z parse_int print_int to_int PyInt
    | KFloat => f f64 parse_double (print_double prec) to_double PyFloat
    end.
  (** a method called on an object of class [c] and namespace [ns] with implementation [t]; [other]: the implementation of a BoostPropertyTree argument *)
  Definition do_get (k : kind) (t : ptree) (ns key : bytes) : answer :=
    with_kind k (fun _ tr _ _ mk => of_get mk (getX tr t ns key)).
  (** getXDefault (9-35): p is a ConstPropertyTree pointer, so the const overload is called *)
  Definition do_get_default (k : kind) (t : ptree) (ns key : bytes) (a : pyarg) : answer :=
    with_kind k (fun _ tr _ cv mk => match cv a with Got d => Value (mk (getX_default tr t ns key d)) | Bad => Raised ArgumentError | Over => Raised OverflowError end).
  Definition do_get_or_create (k : kind) (t : ptree) (ns key : bytes) (a : pyarg) : ptree * answer :=
    with_kind k (fun _ tr pr cv mk =>
      match cv a with
      | Got d => match getX_or_set tr pr t ns key d with Ok (t', v) => (t', Value (mk v)) | Undefined => (t, Ub) | _ => (t, Raised RuntimeError) end
      | Bad => (t, Raised ArgumentError) | Over => (t, Raised OverflowError)
      end).
  Definition do_set (k : kind) (t : ptree) (ns key : bytes) (a : pyarg) : ptree * answer :=
    with_kind k (fun _ _ pr cv _ => match cv a with Got v => of_set t (setX pr t ns key v) | Bad => (t, Raised ArgumentError) | Over => (t, Raised OverflowError) end).
  (** loadX, saveX (68-73): the readers and writers, without looking at the extension *)
  Definition do_load (f : format) (fs : fsys) (p : bytes) (t : ptree) : ptree * answer :=
    match fs p with
    | None => (t, Raised RuntimeError)
    | Some c => match f with
                | XML => of_update (loadXml false true t c) | INI => of_update (loadIni t c) | JSON => of_update (loadJson t c)
                | INFO => match loadInfo t c with Some x => of_update x | None => (t, Include) end
                end
    end.
  Definition do_save (f : format) (fs : fsys) (p : bytes) (t : ptree) : fsys * answer :=
    match f with
    | XML => (fs_write fs p (saveXml false t), Nothing)
    | INI => match saveIni t with (c, true) => (fs_write fs p c, Nothing) | (c, false) => (fs_write fs p c, Raised RuntimeError) end
    | JSON => match saveJson t with (c, true) => (fs_write fs p c, Nothing) | (c, false) => (fs_write fs p c, Raised RuntimeError) end
    | INFO => (fs_write fs p (saveInfo t), Nothing)
    end.

  Definition the (w : world) (n : nat) : option obj := nth_error (objs w) n.
  Definition tree_of (w : world) (o : obj) : ptree := hget (heap w) (oloc o).
  Definition put_tree (w : world) (o : obj) (r : ptree * answer) : world * answer :=
    (mkW (objs w) (hset (heap w) (oloc o) (fst r)) (files w), snd r).
  Definition new_obj (w : world) (o : obj) : world * answer := (mkW (objs w ++ [o]) (heap w) (files w), PyObj (length (objs w))).
  (** an argument of type const BoostPropertyTree & *)
  Definition to_boost (w : world) (a : pyarg) : option obj :=
    match a with AObj n => match the w n with Some o => if is_boost (ocls o) then Some o else None | None => None end | _ => None end.
  Definition badargs (w : world) : world * answer := (w, Raised ArgumentError).

  (** the wrapper: number of arguments, converters, call *)
  Definition invoke (w : world) (o : obj) (m : meth) (args : list pyarg) : world * answer :=
    let t := tree_of w o in
    match m, args with
    | MGetChild, [a] =>
        (* &PropertyTree::getChild in both classes (43, 54): the object must be a PropertyTree *)
        if is_tree (ocls o) then match to_str a with Got s => new_obj w (mkO CTree (oloc o) (view_child (ons o) s)) | _ => badargs w end else badargs w
    | MGet k, [a] => match to_str a with Got s => (w, do_get k t (ons o) s) | _ => badargs w end
    | MGetDefault k, [a; d] => match to_str a with Got s => (w, do_get_default k t (ons o) s d) | _ => badargs w end
    | MExists, [a] => match to_str a with Got s => (w, Value (PyBool (doesKeyExist t (ons o) s))) | _ => badargs w end
    | MGetOrCreate k, [a; d] => match to_str a with Got s => put_tree w o (do_get_or_create k t (ons o) s d) | _ => badargs w end
    | MSet k, [a; d] => match to_str a with Got s => put_tree w o (do_set k t (ons o) s d) | _ => badargs w end
    | MLoad f, [a] => match to_str a with Got s => put_tree w o (do_load f (files w) s t) | _ => badargs w end
    | MSave f, [a] => match to_str a with Got s => let '(fs, r) := do_save f (files w) s t in (mkW (objs w) (heap w) fs, r) | _ => badargs w end
    | MUpdate, [b; c; i] =>
        match to_boost w b, to_bool c, to_bool i with
        | Some u, Got c, Got i => put_tree w o (of_update (update t (tree_of w u) c i))
        | _, _, _ => badargs w
        end
    | MUpdateWithEmpty, [b; c] =>
        match to_boost w b, to_bool c with
        | Some u, Got c => put_tree w o (of_update (update t (tree_of w u) c false))
        | _, _ => badargs w
        end
    | MUpdateOrCreate, [b] =>
        match to_boost w b with
        | Some u => put_tree w o (of_update (update t (tree_of w u) true false))
        | None => badargs w
        end
    | _, _ => badargs w
    end.

  (** a statement of a Python program *)
  Inductive stmt :=
  | NewBoost (args : list pyarg)          (** BoostPropertyTree(), BoostPropertyTree(base) *)
  | NewConst (args : list pyarg)          (** ConstPropertyTree(parent, ns) *)
  | NewTree (args : list pyarg)           (** PropertyTree(parent, ns) *)
  | Call (n : nat) (name : bytes) (args : list pyarg).
  Definition exec (w : world) (s : stmt) : world * answer :=
    match s with
    | NewBoost [] => (mkW (objs w ++ [mkO CBoost (length (heap w)) (view_root [])]) (heap w ++ [pempty]) (files w), PyObj (length (objs w)))
    | NewBoost [a] =>
        match to_str a with
        | Got s => (mkW (objs w ++ [mkO CBoost (length (heap w)) (view_root s)]) (heap w ++ [pempty]) (files w), PyObj (length (objs w)))
        | _ => badargs w
        end
    | NewBoost _ => badargs w
    | NewConst [AObj p; a] =>
        match the w p, to_str a with Some o, Got s => new_obj w (mkO CConst (oloc o) (view_child (ons o) s)) | _, _ => badargs w end
    | NewConst _ => badargs w
    | NewTree [AObj p; a] =>
        match the w p, to_str a with
        | Some o, Got s => if is_tree (ocls o) then new_obj w (mkO CTree (oloc o) (view_child (ons o) s)) else badargs w
        | _, _ => badargs w
        end
    | NewTree _ => badargs w
    | Call n name args =>
        match the w n with
        | None => badargs w
        | Some o => match attribute (ocls o) name with None => (w, Raised AttributeError) | Some m => invoke w o m args end
        end
    end.
  Fixpoint run (w : world) (p : list stmt) : world * list answer :=
    match p with [] => (w, []) | s :: r => let '(w1, a) := exec w s in let '(w2, l) := run w1 r in (w2, a :: l) end.
End PyTree.
