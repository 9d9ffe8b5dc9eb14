(** Model of BoostPropertyTreeImplementation::saveIni and loadIni (BoostPropertyTreeImplementation.cpp:140-148):
    boost::property_tree::write_ini and read_ini on whole files. Boost is not part of the repository: the functions follow
    boost/property_tree/ini_parser.hpp (C locale). Not modelled: failures of the file system. *)
From Verif Require Export Bytes.
From Verif Require Import Strings_Model PTree_Model InfoFile_Model.
Open Scope nat_scope.

Notation kid := (bytes * ptree)%type.
Definition has_key (l : list kid) (k : bytes) : bool := match find_kid l k with Some _ => true | None => false end.
(** detail::check_dupes: two children with the same key *)
Fixpoint has_dupes (l : list kid) : bool :=
  match l with [] => false | (k, _) :: r => has_key r k || has_dupes r end.
Definition is_leaf (t : ptree) : bool := match pkids t with [] => true | _ => false end.
Definition EQ : byte := 61%N.
Definition LBRACKET : byte := 91%N. Definition RBRACKET : byte := 93%N.
(** detail::write_keys: what is written, and whether it returned normally *)
Fixpoint write_keys (throw_on_children : bool) (l : list kid) : bytes * bool :=
  match l with
  | [] => ([], true)
  | (k, c) :: r =>
      if is_leaf c then let '(b, ok) := write_keys throw_on_children r in (k ++ [EQ] ++ pdata c ++ [NL] ++ b, ok)
      else if throw_on_children then ([], false) else write_keys throw_on_children r
  end.
(** detail::write_sections *)
Fixpoint write_sections (l : list kid) : bytes * bool :=
  match l with
  | [] => ([], true)
  | (k, c) :: r =>
      if is_leaf c then write_sections r
      else if has_dupes (pkids c) then ([], false)
      else match pdata c with
           | _ :: _ => ([], false)
           | [] => let '(b, ok) := write_keys true (pkids c) in
                   let head := [LBRACKET] ++ k ++ [RBRACKET; NL] in
                   if ok then let '(b', ok') := write_sections r in (head ++ b ++ b', ok') else (head ++ b, false)
           end
  end.
(** write_ini: content of the file afterwards, and whether it returned normally *)
Definition saveIni (t : ptree) : bytes * bool :=
  match pdata t with
  | _ :: _ => ([], false)
  | [] => if has_dupes (pkids t) then ([], false)
          else let '(b, _) := write_keys false (pkids t) in
               let '(b', ok) := write_sections (pkids t) in (b ++ b', ok)
  end.

(** detail::trim *)
Definition trim_ws (s : bytes) : bytes := rev (skip_ws (rev (skip_ws s))).
(** line.find(c): the parts before and after the first c *)
Fixpoint break (c : byte) (s : bytes) : option (bytes * bytes) :=
  match s with
  | [] => None
  | x :: r => if N.eqb x c then Some ([], r) else match break c r with Some (a, b) => Some (x :: a, b) | None => None end
  end.
(** read_ini: [tops] the finished children of the local tree, [cur] the section (its last child) *)
Record inist := mkIni { tops : list kid; cur : option (bytes * list kid) }.
(** the children of the local tree, after dropping an empty current section *)
Definition local_kids (s : inist) : list kid :=
  match cur s with None | Some (_, []) => tops s | Some (n, l) => tops s ++ [(n, Node [] l)] end.
Definition ini_line (line : bytes) (s : inist) : option inist :=
  match trim_ws line with
  | [] => Some s
  | c :: r =>
      if N.eqb c 59 || N.eqb c 35 then Some s
      else if N.eqb c LBRACKET then
        match break RBRACKET r with
        | None => None
        | Some (n, _) => let key := trim_ws n in
                         if has_key (local_kids s) key then None else Some (mkIni (local_kids s) (Some (key, [])))
        end
      else
        match break EQ (c :: r) with
        | None => None
        | Some ([], _) => None
        | Some (k, v) =>
            let key := trim_ws k in let data := trim_ws v in
            match cur s with
            | Some (n, l) => if has_key l key then None else Some (mkIni (tops s) (Some (n, l ++ [(key, Node data [])])))
            | None => if has_key (tops s) key then None else Some (mkIni (tops s ++ [(key, Node data [])]) None)
            end
        end
  end.
Fixpoint ini_lines (l : list bytes) (s : inist) : option inist :=
  match l with [] => Some s | x :: r => match ini_line x s with Some s' => ini_lines r s' | None => None end end.
(** loadIni (140-143): the tree is swapped in only after the whole file has been read *)
Definition loadIni (t : ptree) (file : bytes) : ptree * res unit :=
  match ini_lines (lines file) (mkIni [] None) with
  | Some s => (Node [] (local_kids s), Ok tt)
  | None => (t, ParseError)
  end.
