(** Specification of sm_timing: a registry that numbers the tags in order of first use and, for every handle, the
    list of the durations of the intervals completed since its last reset.  Nothing here refers to the
    implementation's accumulators or maps (only the operation and tag types are shared). *)
From Verif Require Import Timer_Model.
From Coq Require Import Lia.
Import ListNotations.
Open Scope nat_scope.

Record spec := mkSpec {
  reg : list tag;                                  (* tags in order of first use; handle = position *)
  samples : nat -> list Q;                         (* completed intervals of a handle since its last reset *)
  live : timer_id -> option (nat * option Z) }.    (* Timer objects: handle and, while timing, the start time *)
Definition spec0 : spec := mkSpec [] (fun _ => []) (fun _ => None).

Inductive sres := SUnit | SHandle (h : nat) | STag (t : tag) | SBool (b : bool) | SStats (l : list Q) | SThrow | SBad.

Definition upd {B} (f : nat -> B) (i : nat) (b : B) : nat -> B := fun j => if Nat.eqb j i then b else f j.

Definition tag_eq_dec : forall a b : tag, {a = b} + {a <> b} := list_eq_dec N.eq_dec.
(** position of the first occurrence of t in l (length l if absent) *)
Fixpoint pos (t : tag) (l : list tag) : nat :=
  match l with [] => 0 | x :: l' => if tag_eq_dec t x then 0 else S (pos t l') end.
Definition register (s : spec) (t : tag) : spec :=
  if in_dec tag_eq_dec t (reg s) then s else mkSpec (reg s ++ [t]) (samples s) (live s).
Definition handle_of (s : spec) (t : tag) : nat := pos t (reg s).

Definition s_new (s : spec) (i : timer_id) (h : nat) (stopped : bool) (now : Z) : spec :=
  mkSpec (reg s) (samples s) (upd (live s) i (Some (h, if stopped then None else Some now))).
Definition s_sample (s : spec) (h : nat) (t0 t1 : Z) : spec :=
  mkSpec (reg s) (upd (samples s) h (samples s h ++ [((t1 - t0) # 1000000000)%Q])) (live s).
Definition s_reset (s : spec) (h : nat) : spec := mkSpec (reg s) (upd (samples s) h []) (live s).
Definition s_live (s : spec) (i : timer_id) (v : option (nat * option Z)) : spec :=
  mkSpec (reg s) (samples s) (upd (live s) i v).

Definition sstep (s : spec) (o : op) : spec * sres :=
  match o with
  | OGetHandle t => (register s t, SHandle (handle_of (register s t) t))
  | OGetTag h => (s, match nth_error (reg s) h with Some t => STag t | None => SThrow end)
  | ONewHandle i h st now =>
      match live s i with
      | Some _ => (s, SBad)
      | None => if h <? length (reg s) then (s_new s i h st now, SUnit) else (s, SThrow)
      end
  | ONewTag i t st now =>
      match live s i with
      | Some _ => (s, SBad)
      | None => (s_new (register s t) i (handle_of (register s t) t) st now, SUnit)
      end
  | OStart i now =>
      match live s i with
      | None => (s, SBad)
      | Some (h, Some t0) => (s, SThrow)                       (* already timing: nothing changes *)
      | Some (h, None) => (s_live s i (Some (h, Some now)), SUnit)
      end
  | OStop i now =>
      match live s i with
      | None => (s, SBad)
      | Some (h, None) => (s, SThrow)                          (* not timing: nothing changes *)
      | Some (h, Some t0) => (s_live (s_sample s h t0 now) i (Some (h, None)), SUnit)
      end
  | OIsTiming i => (s, match live s i with Some (_, r) => SBool (if r then true else false) | None => SBad end)
  | ODestroy i now =>
      match live s i with
      | None => (s, SBad)
      | Some (h, None) => (s_live s i None, SUnit)
      | Some (h, Some t0) => (s_live (s_sample s h t0 now) i None, SUnit)
      end
  | OStats h => (s, if h <? length (reg s) then SStats (samples s h) else SThrow)
  | OStatsTag t => (register s t, SStats (samples s (handle_of (register s t) t)))
  | OReset h => if h <? length (reg s) then (s_reset s h, SUnit) else (s, SThrow)
  | OResetTag t => (s_reset (register s t) (handle_of (register s t) t), SUnit)
  end.
Fixpoint srun (s : spec) (ops : list op) : spec * list sres :=
  match ops with
  | [] => (s, [])
  | o :: ops' => let '(s1, r) := sstep s o in let '(s2, rs) := srun s1 ops' in (s2, r :: rs)
  end.

(** What the statistics of a list of samples are. *)
Open Scope Q_scope.
Definition qsum (l : list Q) : Q := fold_right Qplus 0 l.
Definition qn (l : list Q) : Q := inject_Z (Z.of_nat (length l)).
Definition is_min (l : list Q) (m : Q) : Prop := In m l /\ forall x, In x l -> m <= x.
Definition is_max (l : list Q) (m : Q) : Prop := In m l /\ forall x, In x l -> x <= m.
(** population variance: mean of the squared deviations from the mean *)
Definition qvar (l : list Q) : Q := qsum (map (fun x => (x - qsum l / qn l) * (x - qsum l / qn l)) l) / qn l.
Definition last50 (l : list Q) : list Q := skipn (length l - 50) l.
Definition opt_is (P : Q -> Prop) (o : option Q) : Prop := match o with Some q => P q | None => False end.

(** The statistics read from an accumulator are those of the sample list. *)
Definition stats_of (a : acc) (l : list Q) : Prop :=
  getNumSamples a = length l /\
  getTotalSeconds a == qsum l /\
  (l = [] -> getMeanSeconds a = None /\ getVarianceSeconds a = None /\ getMinSeconds a = None /\
             getMaxSeconds a = None /\ getHz a = None) /\
  (l <> [] -> opt_is (fun m => m == qsum l / qn l) (getMeanSeconds a) /\
              opt_is (fun v => v == qvar l) (getVarianceSeconds a) /\
              opt_is (is_min l) (getMinSeconds a) /\ opt_is (is_max l) (getMaxSeconds a)) /\
  (l <> [] -> ~ qsum (last50 l) == 0 -> opt_is (fun hz => hz * qsum (last50 l) == qn (last50 l)) (getHz a)).

Definition res_ok (r : result) (s : sres) : Prop :=
  match r, s with
  | RUnit, SUnit => True
  | RHandle h, SHandle h' => h = h'
  | RTag t, STag t' => t = t'
  | RBool b, SBool b' => b = b'
  | RStats a, SStats l => stats_of a l
  | RThrow, SThrow => True
  | RBadObject, SBad => True
  | _, _ => False
  end.
