(** Independent specifications for the string routines (C06-C11). *)
From Verif Require Import Bytes.
Open Scope nat_scope.

(** Keep the first [skip] occurrences of [t], turn every later one into [r]. *)
Fixpoint replace_after (t r : byte) (skip : nat) (s : bytes) : bytes :=
  match s with
  | [] => []
  | c :: s' =>
      if N.eqb c t then
        match skip with
        | S k => c :: replace_after t r k s'
        | O => r :: replace_after t r 0 s'
        end
      else c :: replace_after t r skip s'
  end.

(** Keep the last [skip] occurrences, turn every earlier one into [r]. *)
Definition replace_before (t r : byte) (skip : nat) (s : bytes) : bytes :=
  rev (replace_after t r skip (rev s)).

Definition count (t : byte) (s : bytes) : nat := length (filter (fun c => N.eqb c t) s).

(** Environment substitution as a left-to-right rewriting relation:
    a reference is  $( name )  with no ')' in the name. *)
Inductive EnvSubst (env : bytes -> option bytes) : bytes -> bytes -> Prop :=
| ES_nil : EnvSubst env [] []
| ES_set : forall name v rest out,
    ~ In 41%N name -> env name = Some v -> EnvSubst env rest out ->
    EnvSubst env (str "$(" ++ name ++ str ")" ++ rest) (v ++ out)
| ES_unset : forall name rest out,
    ~ In 41%N name -> env name = None -> EnvSubst env rest out ->
    EnvSubst env (str "$(" ++ name ++ str ")" ++ rest) (str "$(" ++ name ++ str ")" ++ out)
| ES_open : forall rest, ~ In 41%N rest -> EnvSubst env (str "$(" ++ rest) (str "$(" ++ rest)
| ES_char : forall c rest out,
    (forall r, c :: rest <> str "$(" ++ r) -> EnvSubst env rest out ->
    EnvSubst env (c :: rest) (c :: out).

(** Elements joined by a delimiter. *)
Fixpoint join (d : bytes) (l : list bytes) : bytes :=
  match l with
  | [] => []
  | [x] => x
  | x :: r => x ++ d ++ join d r
  end.
