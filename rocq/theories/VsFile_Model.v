(** Model of saving and loading value stores: ValueStoreRef::getBptPtr, canSave, saveTo, fromFile
    (sm_value_store/src/PropertyTreeValueStore.cpp:225-271), with the file formats of PTreeFile_Model.v. Every property tree is
    a BoostPropertyTree. [h], [ic]: the static flags humanReadableInputOutput and ignoreComments. *)
From Verif Require Export Bytes.
From Verif Require Import Strings_Model PTree_Model ValueStore_Model PTreeFile_Model.
Open Scope nat_scope.

(** getBptPtr: dynamic_cast of the store itself, not of what it wraps *)
Definition bpt (s : store) : option nat := match s with PT loc _ => Some loc | _ => None end.
Definition canSave (s : store) : bool := match bpt s with Some _ => true | None => false end.
(** saveTo (263-271): BoostPropertyTree(implementation).save(path): the whole tree, whatever the view of the store *)
Inductive saved := Done (fs : fsys) | Refused | Failed (fs : fsys).
Definition saveTo (h : bool) (fs : fsys) (w : heap) (s : store) (path : bytes) : saved :=
  match bpt s with
  | None => Refused
  | Some loc => match save h fs path (hget w loc) with Fine fs' => Done fs' | Threw _ fs' => Failed fs' | Elsewhere => Failed fs end
  end.
(** fromFile (225-229, 237-241): a new tree, loaded *)
Definition fromFile (h ic : bool) (fs : fsys) (w : heap) (path : bytes) : option (heap * store) :=
  match load h ic fs path pempty with
  | Fine t => let '(w', loc) := halloc w t in Some (w', PT loc (view_root []))
  | _ => None
  end.
