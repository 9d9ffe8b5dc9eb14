(** Model of sm_random/src/random.cpp.  The generator and the two boost distributions are parameters of the determinism part: an engine state,
    how it is seeded and advanced, and what the distributions do with it (the normal distribution may keep a value for its next call). *)
From Verif Require Export Float64 Round_Model.
From Coq Require Export List.
Export ListNotations.

(** randLU (83-86), for the double u that uniform() returned *)
Definition randLU (u lower upper : f64) : f64 := fadd (fmul u (fsub upper lower)) lower.
(** randLUi (88-91): the difference of the bounds and the final sum are int operations (None: overflow, undefined), the product is a double *)
Definition int_ok (z : Z) : bool := ((- 2 ^ 31 <=? z) && (z <? 2 ^ 31))%Z.
Definition randLUi (u : f64) (lower upper : Z) : option Z :=
  if int_ok (upper - lower) then
    match cast_int 32 (ffloor (fmul u (fofZ (upper - lower)))) with
    | Some k => if int_ok (k + lower) then Some (k + lower)%Z else None
    | None => None
    end
  else None.

Section Generator.
  Variables (Eng Cache : Type) (no_cache : Cache) (seed_engine : Z -> Eng).
  (** boost::uniform_real and boost::normal_distribution applied to the engine *)
  Variables (uniform_of : Eng -> f64 * Eng) (normal_of : Eng -> Cache -> f64 * (Eng * Cache)).
  (** class Random (16-60): the two variate_generators hold a reference to the one engine *)
  Record random := Rnd { engine : Eng; cache : Cache }.
  (** the functions of the interface (62-96) *)
  Inductive call := CNormal | CRandn | CUniform | CRand | CRandLU (l u : f64) | CRandLUi (l u : Z) | CSeed (s : Z).
  Inductive output := ODouble (x : f64) | OInt (i : option Z) | ONone.
  Definition step (c : call) (r : random) : output * random :=
    match c with
    | CNormal | CRandn => let '(x, (e, k)) := normal_of (engine r) (cache r) in (ODouble x, Rnd e k)
    | CUniform | CRand => let '(x, e) := uniform_of (engine r) in (ODouble x, Rnd e (cache r))
    | CRandLU l u => let '(x, e) := uniform_of (engine r) in (ODouble (randLU x l u), Rnd e (cache r))
    | CRandLUi l u => let '(x, e) := uniform_of (engine r) in (OInt (randLUi x l u), Rnd e (cache r))
    (* seed (41-47): the engine is seeded twice, both distributions are reset (uniform_real has no state) *)
    | CSeed s => (ONone, Rnd (seed_engine s) no_cache)
    end.
  Fixpoint run (cs : list call) (r : random) : list output * random :=
    match cs with [] => ([], r) | c :: cs => let '(o, r) := step c r in let '(os, r) := run cs r in (o :: os, r) end.
End Generator.
