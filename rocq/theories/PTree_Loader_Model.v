(** Model of sm_property_tree/src/BoostPropertyTreeLoader.cpp.  The file system is an oracle: [fs path] is the tree
    `BoostPropertyTree::load(path)` reads, or None if it throws; [parent_dir] is path::remove_filename.  The log callbacks
    are not modelled; what the claims need of them is the trace of opened and applied files. *)
From Verif Require Export PTree_Model.
From Verif Require Import Strings_Model.
Open Scope nat_scope.

(** splitCommaSeparatedList (10-14): boost::split, never empty *)
Fixpoint split_commas (s : bytes) : list bytes :=
  match s with
  | [] => [[]]
  | c :: r => if N.eqb c COMMA then [] :: split_commas r
              else match split_commas r with h :: t => (c :: h) :: t | [] => [[c]] end
  end.

(** resolveFullFilePath (116-144).  [fileExists] is the virtual function, [fsExists] boost::filesystem::exists. *)
Section Resolve.
  Variables (fileExists fsExists : bytes -> bool) (parent_dir : bytes -> bytes) (searchPaths infixes : list bytes).
  Definition starts_with (p s : bytes) : bool := match drop_prefix p s with Some _ => true | None => false end.
  Definition infixes' : list bytes := match infixes with [] => [[]] | _ => infixes end.          (* 130-132 *)
  Definition candidate (bp infix path : bytes) : bytes :=                                         (* 136 *)
    bp ++ str "/" ++ (match infix with [] => [] | _ => infix ++ str "/" end) ++ path.
  Definition candidates (path : bytes) : list bytes :=
    flat_map (fun bp => map (fun i => candidate bp i path) infixes') searchPaths.
  Definition search (path : bytes) : bytes :=                                                     (* 130-143 *)
    match List.find fsExists (candidates path) with
    | Some c => c
    | None => match searchPaths with
              | sp :: _ => sp ++ str "/" ++ (match infixes' with i :: _ => i | [] => [] end) ++ str "/" ++ path
              | [] => path
              end
    end.
  Definition resolveFullFilePath (path relativeToFile : bytes) : bytes :=
    if (match searchPaths with [] => true | _ => false end) || N.eqb (nth 0 path 0%N) SLASH then path   (* 117-118 *)
    else if starts_with (str "./") path || starts_with (str "../") path then                            (* 119-128 *)
      if (match relativeToFile with [] => true | _ => false end) && fileExists path then path
      else let c := parent_dir relativeToFile ++ str "/" ++ path in
           if fileExists c then c else search path
    else search path.
End Resolve.

(** The loading session (UpdateablePropertyTree, 16-77) *)
Inductive event :=
| Opened (name : bytes) (parents : list bytes)            (* file read; the parents it names *)
| Applied (name : bytes) (tree : ptree) (updateOnly : bool).
Record session := mkS { ignore : list bytes; conf : option ptree; trace : list event }.
Inductive lres := LOk (s : session) | LThrow | LUndef | LFuel.
Definition BANG : byte := 33%N.
Definition PARENTS : bytes := str "parents".

Section Load.
  Variables (fs : bytes -> option ptree) (resolve : bytes -> bytes -> bytes) (oob : byte).
  (** 50-57: the mutable getString stores "parents" if it is missing; else the first child's copy is asked *)
  Definition parents_of (pt : ptree) : option (ptree * bytes) :=
    match getX_or_set parse_string print_string pt (view_root []) PARENTS [] with
    | Ok (pt', ps) =>
        match ps with
        | [] => match getChildren oob pt' (view_root []) with
                | Ok ((_, c) :: _) => match getX_or_set parse_string print_string c (view_root []) PARENTS [] with
                                      | Ok (_, ps) => Some (pt', ps)
                                      | _ => None
                                      end
                | Ok [] => Some (pt', [])
                | _ => None
                end
        | _ => Some (pt', ps)
        end
    | _ => None
    end.
  (** updateOrSet (24-36): update(newPt, !updateOnly) has ignoreEmptyUpdates = false *)
  Definition updateOrSet (c : option ptree) (newPt : ptree) (updateOnly : bool) : option ptree :=
    match c with
    | None => Some newPt
    | Some c => match update c newPt (negb updateOnly) false with (c', Ok _) => Some c' | _ => None end
    end.
  (** loadConfigFileWithParents (38-67) *)
  Definition loadConfigFileWithParents (rec : list bytes -> bytes -> session -> lres)
      (configFile relativeToFile : bytes) (s : session) : lres :=
    let updateOnly := ends_with BANG configFile in
    let cf := if updateOnly then firstn (length configFile - 1) configFile else configFile in
    let full := resolve cf relativeToFile in
    match fs full with
    | None => LThrow
    | Some pt =>
        match parents_of pt with
        | None => LUndef
        | Some (pt', ps) =>
            let names := match ps with [] => [] | _ => split_commas ps end in
            let s1 := mkS (ignore s) (conf s) (trace s ++ [Opened configFile names]) in
            match (match names with [] => LOk s1 | _ => rec names full s1 end) with
            | LOk s2 => match updateOrSet (conf s2) pt' updateOnly with
                        | Some c => LOk (mkS (ignore s2) (Some c) (trace s2 ++ [Applied configFile pt' updateOnly]))
                        | None => LThrow
                        end
            | e => e
            end
        end
    end.
  Definition mem (n : bytes) (l : list bytes) : bool := existsb (bytes_eqb n) l.
  (** readFiles (69-77); fuel bounds the depth of the recursion *)
  Fixpoint readFiles (fuel : nat) (configFiles : list bytes) (relativeToFile : bytes) (s : session) : lres :=
    match fuel with
    | O => LFuel
    | S f =>
        (fix go (l : list bytes) (s : session) : lres :=
           match l with
           | [] => LOk s
           | n :: r =>
               if (match n with [] => true | _ => false end) || mem n (ignore s) then go r s
               else match loadConfigFileWithParents (readFiles f) n relativeToFile
                            (mkS (n :: ignore s) (conf s) (trace s)) with
                    | LOk s' => go r s'
                    | e => e
                    end
           end) configFiles s
    end.
  (** readFilesAndMergeIntoPropertyTree (98-111) *)
  Definition session0 : session := mkS [] None [].
  Definition readFilesAndMerge (fuel : nat) (configFiles : list bytes) : lres := readFiles fuel configFiles [] session0.
End Load.

(** findFile (BoostPropertyTreeSupport.cpp:13-29): [None] = runtime_error *)
Definition findFile (getenv : bytes -> option bytes) (exists_ : bytes -> bool) (name envVar : bytes) : option bytes :=
  match getenv (c_str envVar) with
  | None => None
  | Some dir => let full := ensureTrailingBackslash dir ++ name in
                if exists_ full then Some (c_str full) else None
  end.
