(** Model of the progress reports: Progress and Progress2 of sm_python/python/sm/Progress.py.  Times are exact real numbers (Python: doubles), counters
    integers. *)
From Coq Require Import Reals.
From Flocq Require Import Core.Raux.
From Verif Require Export Bytes.
From Verif Require Import PTree_Model.
Open Scope R_scope.

(** started, startTime, numIterations, iteration (elapsed is overwritten before it is read) *)
Record progress := mkProg { started : bool; startTime : R; numIterations : Z; iteration : Z }.
(** __init__ (9-14, 49-53) *)
Definition progress_new (n : Z) : progress := mkProg false 0 n 0.
(** what a call prints: nothing; a report: iteration, numIterations, elapsed, total and the text of the remaining time; or it raises *)
Inductive report := Quiet | Report (i n : Z) (elapsed total : R) (text : bytes) | Raises.

(** divmod(x, 60) for floats *)
Definition divmod60 (x : R) : Z * R := (Zfloor (x / 60), x - 60 * IZR (Zfloor (x / 60))).
Definition divmod60Z (x : Z) : Z * Z := (x / 60, x mod 60)%Z.
(** the remaining time as text (68-73): m and h are whole numbers; %d cuts the fraction of s *)
Definition remaining_text (rem : R) : bytes :=
  let '(m, s) := divmod60 rem in
  let '(h, m) := divmod60Z m in
  (if (0 <? h)%Z then print_int h ++ str " h " else []) ++ (if (0 <? m)%Z then print_int m ++ str "m " else []) ++
  (if Rlt_bool 0 s then print_int (Ztrunc s) ++ str "s" else []).

(** sample of Progress2 (55-80) at the time [now]; Progress (16-28) is the same with one step and without the text.  A report with iteration 0 divides
    by zero; the assignments before that stay. *)
Definition sample (p : progress) (steps : Z) (now : R) : progress * report :=
  if started p then
    let i := (iteration p + steps)%Z in
    let p' := mkProg true (startTime p) (numIterations p) i in
    let elapsed := now - startTime p in
    if (i =? 0)%Z then (p', Raises)
    else let perRun := elapsed / IZR i in
         let total := IZR (numIterations p) * perRun in
         (p', Report i (numIterations p) elapsed total (remaining_text (total - elapsed)))
  else (mkProg true now (numIterations p) 0, Quiet).
(** reset (82-92) *)
Definition progress_reset (p : progress) (n : Z) : progress := mkProg false 0 (if (n =? -1)%Z then numIterations p else n) 0.
(** the line printed by Progress2.sample (74-75): print is given the result of flush() as a second argument *)
Definition line_of (r : report) : bytes :=
  match r with
  | Report i n _ _ t => 13%N :: str "  Progress " ++ print_int i ++ str " / " ++ print_int n ++ str " " ++ 9%N :: str " Time remaining: " ++ t ++ str "                 " ++ str " None" ++ [10%N]
  | _ => []
  end.
(** a history of samples (steps, time): the reports, until one raises *)
Fixpoint samples (p : progress) (h : list (Z * R)) : progress * list report :=
  match h with
  | [] => (p, [])
  | (k, t) :: r => let '(p', x) := sample p k t in
                   match x with Raises => (p', [x]) | _ => let '(p'', l) := samples p' r in (p'', x :: l) end
  end.
