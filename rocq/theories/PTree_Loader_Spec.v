(** Vocabulary of the loader claims. *)
From Verif Require Import PTree_Model PTree_Loader_Model.
Open Scope nat_scope.

(** The names in the order in which files were opened, and in which they were merged into the result. *)
Definition opened (l : list event) : list bytes := flat_map (fun e => match e with Opened n _ => [n] | _ => [] end) l.
Definition applied (l : list event) : list bytes := flat_map (fun e => match e with Applied n _ _ => [n] | _ => [] end) l.

(** The merge of a sequence of applied trees: the first one is taken as it is, each later one is merged into what is there
    with update (or updateOnly for names ending in an exclamation mark); None if one of them throws. *)
Fixpoint merged (c : option ptree) (l : list event) : option ptree :=
  match l with
  | [] => c
  | Opened _ _ :: r => merged c r
  | Applied _ t u :: r => match updateOrSet c t u with Some c' => merged (Some c') r | None => None end
  end.

(** What each file's tree says about parents: the key parents of the tree, or else of its first child. *)
Definition parents_spec (t : ptree) : bytes :=
  match getX parse_string t (view_root []) PARENTS with
  | Ok (c :: r) => c :: r
  | _ => match t with
         | Node _ ((_, c) :: _) => match getX parse_string c (view_root []) PARENTS with Ok v => v | _ => [] end
         | Node _ [] => []
         end
  end.
