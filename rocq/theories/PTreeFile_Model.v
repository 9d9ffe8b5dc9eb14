(** Model of BoostPropertyTree::load and save (sm_property_tree/src/BoostPropertyTree.cpp:33-92) with the readers
    and writers of XmlFile_Model.v, InfoFile_Model.v, IniFile_Model.v and JsonFile_Model.v. [h] and [ic] are the static
    flags humanReadableInputOutput and ignoreComments (10-11).
    boost::filesystem::path::extension (version 3) on '/'-separated paths. A file system is a partial map from paths to
    contents; a missing file makes the readers throw. *)
From Verif Require Export Bytes.
From Verif Require Import Strings_Model PTree_Model InfoFile_Model IniFile_Model JsonFile_Model XmlFile_Model.
Open Scope nat_scope.

(** The characters after the last [c]; [None]: there is no [c]. *)
Fixpoint after_last (c : byte) (s : bytes) : option bytes :=
  match s with
  | [] => None
  | x :: r => match after_last c r with Some t => Some t | None => if N.eqb x c then Some r else None end
  end.
Definition DOT : byte := 46%N.
(** path::filename: "." after a trailing separator *)
Definition filename (p : bytes) : bytes :=
  match after_last SLASH p with None => p | Some [] => [DOT] | Some n => n end.
(** path::extension().string() and substr(1) (41-44) *)
Definition extension (p : bytes) : bytes :=
  let n := filename p in
  if bytes_eqb n [DOT] || bytes_eqb n [DOT; DOT] then []
  else match after_last DOT n with Some e => e | None => [] end.
Inductive format := XML | INI | JSON | INFO.
(** getFileFormatAndThrowIfUnknown (40-55) *)
Definition getFormat (p : bytes) : option format :=
  let e := extension p in
  if bytes_eqb e (str "xml") then Some XML
  else if bytes_eqb e (str "ini") then Some INI
  else if bytes_eqb e (str "json") then Some JSON
  else if bytes_eqb e (str "info") then Some INFO
  else None.

Definition fsys := bytes -> option bytes.
Definition fs_write (fs : fsys) (p c : bytes) : fsys := fun q => if bytes_eqb p q then Some c else fs q.
(** [Threw k]: an exception; [Elsewhere]: the file includes other files, not followed *)
Inductive why := UnknownFormat | BadFile | BadTree.
Inductive outcome (A : Type) := Fine (a : A) | Threw (w : why) (a : A) | Elsewhere.
Arguments Fine {A}. Arguments Threw {A}. Arguments Elsewhere {A}.
Definition of_res (x : ptree * res unit) : outcome ptree := match x with (t, Ok _) => Fine t | (t, _) => Threw BadFile t end.
(** load (57-72): the tree afterwards *)
Definition load (h ic : bool) (fs : fsys) (p : bytes) (t : ptree) : outcome ptree :=
  match getFormat p with
  | None => Threw UnknownFormat t
  | Some f =>
      match fs p with
      | None => Threw BadFile t
      | Some c =>
          match f with
          | XML => of_res (loadXml h ic t c)
          | INI => of_res (loadIni t c)
          | JSON => of_res (loadJson t c)
          | INFO => match loadInfo t c with Some x => of_res x | None => Elsewhere end
          end
      end
  end.
(** save (74-89): the file system afterwards *)
Definition save (h : bool) (fs : fsys) (p : bytes) (t : ptree) : outcome fsys :=
  match getFormat p with
  | None => Threw UnknownFormat fs
  | Some XML => Fine (fs_write fs p (saveXml h t))
  | Some INI => match saveIni t with (c, true) => Fine (fs_write fs p c) | (c, false) => Threw BadTree (fs_write fs p c) end
  | Some JSON => match saveJson t with (c, true) => Fine (fs_write fs p c) | (c, false) => Threw BadTree (fs_write fs p c) end
  | Some INFO => Fine (fs_write fs p (saveInfo t))
  end.
