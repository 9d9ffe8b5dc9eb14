(** Model of sm_property_tree: src/PropertyTree.cpp, include/sm/BoostPropertyTreeImplementation.hpp,
    src/BoostPropertyTreeImplementation.cpp, src/BoostPropertyTree.cpp.  boost::property_tree::ptree (paths, find, put,
    the stream translators of std::string, int and bool, and the INFO reader used by loadString) is modelled from its
    documented behaviour, since its source is not part of the repository.  XML, INI, JSON and INFO files and
    their writers: XmlFile, IniFile, JsonFile, InfoFile and PTreeFile.  Not modelled: null implementation pointers, aliasing of `update` with itself, double <-> text (kept abstract). *)
From Verif Require Export Bytes.
From Verif Require Import Strings_Model Timer_Model.
Open Scope nat_scope.

(** ** boost::property_tree::ptree: data and an ordered list of (key, child); keys may repeat. *)
Inductive ptree := Node (d : bytes) (ks : list (bytes * ptree)).
Definition pdata (t : ptree) : bytes := let '(Node d _) := t in d.
Definition pkids (t : ptree) : list (bytes * ptree) := let '(Node _ ks) := t in ks.
Definition pempty : ptree := Node [] [].

(** basic_ptree::find: the first child with the key *)
Fixpoint find_kid (ks : list (bytes * ptree)) (k : bytes) : option ptree :=
  match ks with
  | [] => None
  | (k', c) :: r => if bytes_eqb k' k then Some c else find_kid r k
  end.
(** string_path::reduce repeated until the path is empty; a trailing separator yields no component *)
Fixpoint components (sep : byte) (s : bytes) : list bytes :=
  match s with
  | [] => []
  | c :: r => if N.eqb c sep then [] :: components sep r
              else match components sep r with
                   | h :: t => (c :: h) :: t
                   | [] => [[c]]
                   end
  end.
Definition ends_with (c : byte) (s : bytes) : bool := match s with [] => false | _ => N.eqb (last s 0%N) c end.
(** basic_ptree::walk_path *)
Fixpoint walk (t : ptree) (p : list bytes) : option ptree :=
  match p with
  | [] => Some t
  | k :: p' => match find_kid (pkids t) k with Some c => walk c p' | None => None end
  end.
(** replace the first child with key [k] by [f child]; if there is none, push_back [f (empty tree)] *)
Fixpoint set_kid (ks : list (bytes * ptree)) (k : bytes) (f : ptree -> ptree) : list (bytes * ptree) :=
  match ks with
  | [] => [(k, f pempty)]
  | (k', c) :: r => if bytes_eqb k' k then (k', f c) :: r else (k', c) :: set_kid r k f
  end.
(** basic_ptree::put on the components of a path: an existing node gets new data; otherwise missing nodes are created
    with push_back (force_path, put_child) *)
Fixpoint put_comps (t : ptree) (p : list bytes) (v : bytes) : ptree :=
  match p with
  | [] => Node v (pkids t)
  | k :: p' => Node (pdata t) (set_kid (pkids t) k (fun c => put_comps c p' v))
  end.

(** Outcomes. [Undefined]: undefined behaviour or a failed BOOST_ASSERT. *)
Inductive res (A : Type) :=
| Ok (a : A) | InvalidValue | InvalidKey | KeyNotFound | BadPath | ParseError | Undefined.
Arguments Ok {A}. Arguments InvalidValue {A}. Arguments InvalidKey {A}. Arguments KeyNotFound {A}.
Arguments BadPath {A}. Arguments ParseError {A}. Arguments Undefined {A}.

(** put(path_type(s, sep), v): a path ending in a separator whose node is missing is reduced when empty (assertion) *)
Definition put (t : ptree) (sep : byte) (s v : bytes) : res ptree :=
  let p := components sep s in
  match walk t p with
  | None => if ends_with sep s then Undefined else Ok (put_comps t p v)
  | Some _ => Ok (put_comps t p v)
  end.
(** get_optional<T>(path_type(s, sep)) *)
Definition get_optional {A} (tr : bytes -> option A) (t : ptree) (sep : byte) (s : bytes) : option A :=
  match walk t (components sep s) with Some n => tr (pdata n) | None => None end.

(** ** Translators *)
Fixpoint skip_ws (s : bytes) : bytes := match s with c :: r => if is_space c then skip_ws r else s | [] => [] end.
Definition take_sign (s : bytes) : bool * bytes :=
  match s with
  | c :: r => if N.eqb c 45 then (true, r) else if N.eqb c 43 then (false, r) else (false, s)
  | [] => (false, [])
  end.
Fixpoint take_digits (acc : Z) (s : bytes) : Z * bytes :=
  match s with
  | c :: r => if is_digit c then take_digits (10 * acc + (Z.of_N c - 48))%Z r else (acc, s)
  | [] => (acc, [])
  end.
(** operator>> of an integer: the value (None: failbit) and the rest of the stream *)
Definition num_get (lo hi : Z) (s : bytes) : option Z * bytes :=
  let '(neg, s1) := take_sign (skip_ws s) in
  match s1 with
  | c :: _ => if is_digit c
              then let '(v, r) := take_digits 0 s1 in
                   let v := if neg then (- v)%Z else v in
                   (if (lo <=? v)%Z && (v <=? hi)%Z then Some v else None, r)
              else (None, s1)
  | [] => (None, [])
  end.
(** stream_translator<int>: extract, skip blanks, require the end of the text *)
Definition INT_MIN := (- 2 ^ 31)%Z. Definition INT_MAX := (2 ^ 31 - 1)%Z.
Definition parse_int (s : bytes) : option Z :=
  match num_get INT_MIN INT_MAX s with
  | (Some v, r) => match skip_ws r with [] => Some v | _ => None end
  | (None, _) => None
  end.
Definition print_int (z : Z) : bytes := if (z <? 0)%Z then 45%N :: dec (- z) else dec z.
Fixpoint drop_prefix (p s : bytes) : option bytes :=
  match p, s with
  | [], _ => Some s
  | a :: p', b :: s' => if N.eqb a b then drop_prefix p' s' else None
  | _ :: _, [] => None
  end.
(** stream_translator<bool>: a number 0 or 1, else (at the position reached) true/false *)
Definition parse_bool (s : bytes) : option bool :=
  let fin (r : bytes) (b : bool) := match skip_ws r with [] => Some b | _ => None end in
  let '(v, r) := num_get (- 2 ^ 63)%Z (2 ^ 63 - 1)%Z s in
  match v with
  | Some 0%Z => fin r false
  | Some 1%Z => fin r true
  | _ => match drop_prefix (str "true") (skip_ws r) with
         | Some r' => fin r' true
         | None => match drop_prefix (str "false") (skip_ws r) with
                   | Some r' => fin r' false
                   | None => None
                   end
         end
  end.
Definition print_bool (b : bool) : bytes := if b then str "true" else str "false".
Definition parse_string (s : bytes) : option bytes := Some s.
Definition print_string (s : bytes) : bytes := s.

(** ** BoostPropertyTreeImplementation: the argument [q] is the qualified key *)
(** get (BoostPropertyTreeImplementation.hpp:90-109) *)
Definition imp_get {A} (tr : bytes -> option A) (t : ptree) (q : bytes) : res A :=
  match walk t (components SLASH (skipn 1 q)) with
  | None => InvalidKey
  | Some n => match tr (pdata n) with Some a => Ok a | None => InvalidValue end
  end.
(** const get with default (111-123) *)
Definition imp_get_default {A} (tr : bytes -> option A) (t : ptree) (q : bytes) (def : A) : A :=
  match get_optional tr t SLASH (skipn 1 q) with Some v => v | None => def end.
(** set (140-144) *)
Definition imp_set {A} (pr : A -> bytes) (t : ptree) (q : bytes) (v : A) : res ptree :=
  put t SLASH (skipn 1 q) (pr v).
(** mutable get with default (125-138): tree afterwards and value *)
Definition imp_get_or_set {A} (tr : bytes -> option A) (pr : A -> bytes) (t : ptree) (q : bytes) (def : A)
  : res (ptree * A) :=
  match get_optional tr t SLASH (skipn 1 q) with
  | Some v => Ok (t, v)
  | None => match imp_set pr t q def with
            | Ok t' => Ok (t', def)
            | InvalidValue => InvalidValue | InvalidKey => InvalidKey | KeyNotFound => KeyNotFound
            | BadPath => BadPath | ParseError => ParseError | Undefined => Undefined
            end
  end.
(** doesKeyExist (BoostPropertyTreeImplementation.cpp:95-100): through c_str() *)
Definition imp_doesKeyExist (t : ptree) (q : bytes) : bool :=
  let k := match q with c :: r => if N.eqb c SLASH then r else q | [] => q end in
  match get_optional parse_string t SLASH (c_str k) with Some _ => true | None => false end.
(** getChildren (260-278).  k.back() on an empty string (for the key "/") reads the byte [oob] before the string. *)
Definition DOT : byte := 46%N.
Definition imp_getChildren (oob : byte) (t : ptree) (key : bytes) : res (list (bytes * ptree)) :=
  let cont (k : bytes) :=
    match k with
    | [] => Ok (pkids t)
    | _ => let k := map (fun c => if N.eqb c SLASH then DOT else c) k in
           match walk t (components DOT k) with Some n => Ok (pkids n) | None => BadPath end
    end in
  match key with
  | [] => cont []
  | c :: r =>
      let k := if N.eqb c SLASH then r else key in
      match k with
      | [] => if N.eqb oob SLASH then Undefined else cont []
      | _ => if ends_with SLASH k then cont (firstn (length k - 1) k) else cont k
      end
  end.

(** ** ConstPropertyTree / PropertyTree: a view is its _namespace; the tree is shared *)
Definition lead_slash (s : bytes) : bytes :=
  match s with c :: _ => if N.eqb c SLASH then s else SLASH :: s | [] => [] end.
(** constructor from an implementation (PropertyTree.cpp:7-12) *)
Definition view_root (baseNamespace : bytes) : bytes := lead_slash (ensureTrailingBackslash baseNamespace).
(** constructor from a parent view (14-28) *)
Definition view_child (parent : bytes) (childNamespace : bytes) : bytes :=
  lead_slash (match childNamespace with
              | c :: _ => if N.eqb c SLASH then ensureTrailingBackslash childNamespace
                          else ensureTrailingBackslash (parent ++ childNamespace)
              | [] => ensureTrailingBackslash (parent ++ childNamespace)
              end).
(** buildQualifiedKeyName (52-59) *)
Definition buildQualifiedKeyName (ns key : bytes) : bytes :=
  let q := match key with
           | c :: _ => if N.eqb c SLASH then key else ns ++ key
           | [] => ns ++ key
           end in
  if (1 <? length q) && ends_with SLASH q then firstn (length q - 1) q else q.
(** The forwarding functions (61-162), getChildren (164-176) *)
Definition getX {A} (tr : bytes -> option A) (t : ptree) (ns key : bytes) : res A :=
  imp_get tr t (buildQualifiedKeyName ns key).
Definition getX_default {A} (tr : bytes -> option A) (t : ptree) (ns key : bytes) (def : A) : A :=
  imp_get_default tr t (buildQualifiedKeyName ns key) def.
Definition getX_or_set {A} (tr : bytes -> option A) (pr : A -> bytes) (t : ptree) (ns key : bytes) (def : A)
  : res (ptree * A) := imp_get_or_set tr pr t (buildQualifiedKeyName ns key) def.
Definition setX {A} (pr : A -> bytes) (t : ptree) (ns key : bytes) (v : A) : res ptree :=
  imp_set pr t (buildQualifiedKeyName ns key) v.
Definition doesKeyExist (t : ptree) (ns key : bytes) : bool := imp_doesKeyExist t (buildQualifiedKeyName ns key).
Definition getChildren (oob : byte) (t : ptree) (ns : bytes) : res (list (bytes * ptree)) := imp_getChildren oob t ns.

(** ** update (281-318) *)
(** path_type operator/ with separator '.' *)
Definition path_div (a b : bytes) : bytes :=
  match b with [] => a | _ => match a with [] => b | _ => a ++ DOT :: b end end.
(** traverse_recursive (285-295): the calls of `method` in order, as (childPath, child.data()) *)
Fixpoint traverse (path : bytes) (t : ptree) : list (bytes * bytes) :=
  match t with
  | Node d ks =>
      (path, d) :: (fix go (l : list (bytes * ptree)) : list (bytes * bytes) :=
                      match l with [] => [] | (k, c) :: r => traverse (path_div path k) c ++ go r end) ks
  end.
Definition blank (d : bytes) : bool :=
  forallb (fun c => N.eqb c 32 || N.eqb c 10 || N.eqb c 9 || N.eqb c 13) d.
(** updateOnly (297-303), merge (304-307): tree afterwards and outcome *)
Definition update1 (createIfNecessary ignoreEmptyUpdates : bool) (dest : ptree) (e : bytes * bytes) : ptree * res unit :=
  let '(path, d) := e in
  if ignoreEmptyUpdates && blank d then (dest, Ok tt)
  else if negb createIfNecessary && (match get_optional parse_string dest DOT path with Some _ => false | None => true end)
  then (dest, KeyNotFound)
  else match put dest DOT path d with Ok dest' => (dest', Ok tt) | _ => (dest, Undefined) end.
Fixpoint update_all (create ign : bool) (dest : ptree) (l : list (bytes * bytes)) : ptree * res unit :=
  match l with
  | [] => (dest, Ok tt)
  | e :: r => match update1 create ign dest e with
              | (dest', Ok _) => update_all create ign dest' r
              | x => x
              end
  end.
(** update (315-318) *)
Definition update (dest with_ : ptree) (createIfNecessary ignoreEmptyUpdates : bool) : ptree * res unit :=
  update_all createIfNecessary ignoreEmptyUpdates dest (traverse [] with_).

(** ** loadString (167-218) *)
Definition NL : byte := 10%N. Definition LBRACE : byte := 123%N. Definition RBRACE : byte := 125%N.
Definition COMMA : byte := 44%N. Definition EQUALS : byte := 61%N. Definition QUOTE : byte := 34%N.
Fixpoint close_braces (n : nat) : bytes := match n with O => [] | S n' => [NL; RBRACE] ++ close_braces n' end.
(** The loop, one character at a time: characters between special ones are copied (line 184), the end of the string acts
    as ','.  [cnt :: stk] is countBraceOpen with its back first.  [None]: unmatched '}'. *)
Fixpoint inline_to_info (s : bytes) (cnt : nat) (stk : list nat) : option bytes :=
  match s with
  | [] => Some (close_braces cnt ++ [NL])
  | c :: r =>
      if N.eqb c EQUALS then option_map (fun o => 32%N :: o) (inline_to_info r cnt stk)
      else if N.eqb c SLASH then option_map (fun o => [NL; LBRACE; NL] ++ o) (inline_to_info r (S cnt) stk)
      else if N.eqb c LBRACE then option_map (fun o => [NL; LBRACE; NL] ++ o) (inline_to_info r 0 (cnt :: stk))
      else if N.eqb c RBRACE then
        match stk with
        | [] => None
        | cnt' :: stk' => option_map (fun o => close_braces cnt ++ [NL; RBRACE] ++ o) (inline_to_info r cnt' stk')
        end
      else if N.eqb c COMMA then option_map (fun o => close_braces cnt ++ [NL] ++ o) (inline_to_info r 0 stk)
      else option_map (cons c) (inline_to_info r cnt stk)
  end.

(** boost::property_tree::read_info on text without quotes: the tokens of a line are words, braces at the start of a word,
    and comments (';' to the end of the line); '#' as the first character of a line starts a directive, which needs a
    quoted file name and therefore fails.  A NUL ends the line. *)
Inductive token := TEol | TOpen | TClose | TWord (w : bytes) | TBad.
Inductive tstate := Bol | Mid | InWord (acc : bytes) | Skip.
Definition flush (st : tstate) : list token := match st with InWord acc => [TWord (rev acc)] | _ => [] end.
Fixpoint tokens (st : tstate) (s : bytes) : list token :=
  match s with
  | [] => flush st ++ [TEol]
  | c :: r =>
      if N.eqb c NL then flush st ++ TEol :: tokens Bol r
      else match st with
           | Skip => tokens Skip r
           | InWord acc =>
               if is_space c then TWord (rev acc) :: tokens Mid r
               else if N.eqb c 59 || N.eqb c 0 then TWord (rev acc) :: tokens Skip r
               else tokens (InWord (c :: acc)) r
           | Bol | Mid =>
               if is_space c then tokens st r
               else if N.eqb c 59 || N.eqb c 0 then tokens Skip r
               else if N.eqb c 35 && (match st with Bol => true | _ => false end) then [TBad]
               else if N.eqb c LBRACE then TOpen :: tokens Mid r
               else if N.eqb c RBRACE then TClose :: tokens Mid r
               else tokens (InWord [c]) r
           end
  end.
(** expand_escapes *)
Definition escape_char (c : byte) : option byte :=
  match c with
  | 48 => Some 0 | 97 => Some 7 | 98 => Some 8 | 102 => Some 12 | 110 => Some 10 | 114 => Some 13 | 116 => Some 9
  | 118 => Some 11 | 34 => Some 34 | 39 => Some 39 | 92 => Some 92 | _ => None
  end%N.
Fixpoint expand_escapes (s : bytes) : option bytes :=
  match s with
  | [] => Some []
  | c :: r => if N.eqb c 92
              then match r with
                   | e :: r' => match escape_char e with
                                | Some x => option_map (cons x) (expand_escapes r')
                                | None => None
                                end
                   | [] => None
                   end
              else option_map (cons c) (expand_escapes r)
  end.
(** The node stack: each frame is a node under construction with its key; `last` is the last child of the top node, or
    null. *)
Definition frame := (bytes * ptree)%type.
Definition add_kid (t : ptree) (k : bytes) (c : ptree) : ptree := Node (pdata t) (pkids t ++ [(k, c)]).
Definition split_last (ks : list (bytes * ptree)) : option (list (bytes * ptree) * (bytes * ptree)) :=
  match rev ks with [] => None | x :: r => Some (rev r, x) end.
(** [last]: whether `last` is non-null; [data]: the parser state is s_data *)
Fixpoint run_info (top : frame) (stk : list frame) (last data : bool) (l : list token) : option ptree :=
  match l with
  | [] => match stk with [] => Some (snd top) | _ => None end
  | TEol :: r => run_info top stk last false r
  | TOpen :: r =>
      if last then
        match split_last (pkids (snd top)) with
        | Some (ks, x) => run_info x ((fst top, Node (pdata (snd top)) ks) :: stk) false false r
        | None => None
        end
      else None
  | TClose :: r =>
      match stk with
      | [] => None
      | (k, t) :: stk' => run_info (k, add_kid t (fst top) (snd top)) stk' false false r
      end
  | TWord w :: r =>
      match expand_escapes w with
      | None => None
      | Some w =>
          if data then
            match split_last (pkids (snd top)) with
            | Some (ks, (k, c)) =>
                run_info (fst top, Node (pdata (snd top)) (ks ++ [(k, Node w (pkids c))])) stk last false r
            | None => None
            end
          else run_info (fst top, add_kid (snd top) w pempty) stk true true r
      end
  | TBad :: _ => None
  end.
Definition read_info (text : bytes) : option ptree := run_info ([], pempty) [] false false (tokens Bol text).
(** The tree is replaced only when parsing succeeds. *)
Definition loadString (t : ptree) (s : bytes) : ptree * res unit :=
  if existsb (N.eqb QUOTE) s then (t, ParseError)
  else match inline_to_info s 0 [] with
       | None => (t, ParseError)
       | Some text => match read_info text with Some t' => (t', Ok tt) | None => (t, ParseError) end
       end.
(** loadStrings (BoostPropertyTree.cpp:137-149): boost::algorithm::join(strings, ",") *)
Fixpoint join (l : list bytes) : bytes :=
  match l with [] => [] | [x] => x | x :: r => x ++ COMMA :: join r end.
Definition loadStrings (t : ptree) (l : list bytes) : ptree * res unit := loadString t (join l).
