(** Model of the logging macros: sm_logging/include/sm/logging/console.hpp (67-245), macros_generated.hpp (all 11 levels times 16
    variants have exactly the shape modelled by [expand]), Levels.hpp (5-16) and macros.h (96-116), on top of Logging_Model.
    One thread.  The formatting of the arguments into the message text and the Logger behind print are not modelled (see
    Logging_Model and C60, C64). *)
From Verif Require Import Bytes Float64 Logging_Model.
Open Scope nat_scope.

(** ** C++ variables and expressions of the program that uses the macros *)
Inductive val := VI (z : Z) | VD (x : f64) | Indeterminate.       (* Indeterminate: declared, not initialised yet *)
Definition env := bytes -> val.
(** the value of an expression and the variables afterwards; None: undefined behaviour *)
Definition expr (A : Type) := env -> option (env * A).
Definition pure {A} (a : A) : expr A := fun e => Some (e, a).

(** The local variables the macros declare: they hide variables of the same name in the user's expressions. *)
Definition locals := list (bytes * val).
Fixpoint lookup (l : locals) (x : bytes) : option val :=
  match l with [] => None | (y, v) :: r => if bytes_eqb x y then Some v else lookup r x end.
Definition inside (l : locals) (e : env) : env := fun x => match lookup l x with Some v => v | None => e x end.
Definition outside (l : locals) (old new : env) : env := fun x => match lookup l x with Some _ => old x | None => new x end.
(** evaluate in the macro's scope; assignments to the macro's own variables are not modelled (they end with the scope) *)
Definition eval_in {A} (l : locals) (x : expr A) (e : env) : option (env * A) :=
  match x (inside l e) with Some (e', a) => Some (outside l e e', a) | None => None end.

(** ** Statements *)
(** the level argument: an expression that is one operand (a constant of the enumeration), or c ? a : b *)
Inductive levelx := LConst (l : level) | LTern (c : env -> bool) (a b : level).
Definition level_value (x : levelx) (e : env) : level := match x with LConst l => l | LTern c a b => if c e then a else b end.
(** `loc._level != level` (console.hpp:73): the macro parameter is not parenthesised, so a conditional expression becomes
    (loc._level != c) ? a : b, an enumerator used as a condition *)
Definition level_differs (cur : level) (x : levelx) (e : env) : bool :=
  match x with
  | LConst l => negb (Nat.eqb cur l)
  | LTern c a b => negb (Nat.eqb (if negb (Nat.eqb cur (if c e then 1 else 0)) then a else b) 0)
  end.
(** the rate argument: one operand, or c ? a : b *)
Inductive ratex := RVal (r : env -> f64) | RTern (c : env -> bool) (a b : f64).
Definition rate_value (x : ratex) (e : env) : f64 := match x with RVal r => r e | RTern c a b => if c e then a else b end.
(** SM_UNLIKELY(last_hit + rate <= now) (console.hpp:178, macros.h:96): the parameter is not parenthesised, so a conditional
    expression becomes (last_hit + c) ? a : (b <= now), a double, which __builtin_expect converts to long (towards zero; the
    undefined conversion of a value out of range is taken as nonzero) *)
Definition to_long_nonzero (x : f64) : bool := fleb (fofZ 1) (fabs x).
Definition rate_passed (x : ratex) (e : env) (last now : f64) : bool :=
  match x with
  | RVal r => fleb (fadd last (r e)) now
  | RTern c a b => to_long_nonzero (if negb (feqb (fadd last (if c e then fofZ 1 else fzero)) fzero) then a
                                    else if fleb b now then fofZ 1 else fzero)
  end.
Inductive variant := Plain | WhenTrue (cond : expr bool) | Once | Throttle (rate : ratex).
(** a use of SM_LOG, SM_LOG_COND, SM_LOG_ONCE, SM_LOG_THROTTLE or the STREAM forms *)
Record stmt := mkS { svar : variant; slevel : levelx; sname : expr bytes; sstream : bool; sargs : expr bytes }.

(** ** The global state: LoggingGlobals, the static variables of the statements, the user's variables, what was printed
    (latest first): statement (file and line), time, stream name, level, text *)
Record entry := mkEn { eid : nat; eclock : f64; ename : bytes; elev : level; etext : bytes }.
Record mstate := mkM { mg : shared; mhit : nat -> bool; mlast : nat -> f64; menv : env; mout : list entry }.
Definition m0 (e : env) : mstate := mkM g0 (fun _ => false) (fun _ => fzero) e [].
Definition V_loc := str "loc". Definition V_enabled := str "enabled". Definition V_hit := str "hit".
Definition V_last := str "last_hit". Definition V_now := str "now". Definition V_ss := str "ss___".
Definition set_nat {A} (f : nat -> A) (i : nat) (a : A) : nat -> A := fun j => if Nat.eqb j i then a else f j.
Definition of_bool (b : bool) : val := VI (if b then 1 else 0).
(** SMCONSOLE_DEFINE_LOCATION (console.hpp:67-78).  The name is evaluated only when the location is initialised; the condition
    only if the location is enabled, and within the scope of the variable `enabled` it initialises. *)
Definition define (s : mstate) (id : nat) (name : expr bytes) (lv : levelx) (cond : option (expr bool)) : option (mstate * bool) :=
  let start := if linit (gtable (mg s) id) then Some (mg s, menv s)
               else match eval_in [(V_loc, Indeterminate)] name (menv s) with
                    | Some (e, n) => Some (initialize (mg s) id n (level_value lv e), e)
                    | None => None
                    end in
  match start with
  | None => None
  | Some (g1, e1) =>
      let g2 := if level_differs (llevel (gtable g1 id)) lv e1
                then check (set_loc g1 id (with_level (gtable g1 id) (level_value lv e1))) id else g1 in
      let fin e b := Some (mkM g2 (mhit s) (mlast s) e (mout s), b) in
      if lenabled (gtable g2 id)
      then match cond with
           | None => fin e1 true
           | Some c => match eval_in [(V_loc, Indeterminate); (V_enabled, Indeterminate)] c e1 with
                       | Some (e2, b) => fin e2 b
                       | None => None
                       end
           end
      else fin e1 false
  end.
(** SMCONSOLE_PRINT_AT_LOCATION and SMCONSOLE_PRINT_STREAM_AT_LOCATION (80-91) *)
Definition print_at (s : mstate) (id : nat) (t : stmt) (l : locals) (now : f64) : option mstate :=
  match eval_in (if sstream t then (V_ss, Indeterminate) :: l else l) (sargs t) (menv s) with
  | Some (e, m) => Some (mkM (mg s) (mhit s) (mlast s) e
                           (mkEn id now (lname (gtable (mg s) id)) (llevel (gtable (mg s) id)) m :: mout s))
  | None => None
  end.
(** SM_LOG_COND (103-113), SM_LOG_ONCE (135-145), SM_LOG_THROTTLE (172-183), SM_LOG (243), and the STREAM forms; now is
    what currentTimeSecondsUtc answers *)
Definition exec_stmt (s : mstate) (id : nat) (t : stmt) (now : f64) : option mstate :=
  let cond := match svar t with WhenTrue c => Some c | _ => None end in
  match define s id (sname t) (slevel t) cond with
  | None => None
  | Some (s1, b) =>
      let l0 := [(V_loc, Indeterminate); (V_enabled, of_bool b)] in
      match svar t with
      | Plain | WhenTrue _ => if b then print_at s1 id t l0 now else Some s1
      | Once => if b && negb (mhit s1 id)
                then print_at (mkM (mg s1) (set_nat (mhit s1) id true) (mlast s1) (menv s1) (mout s1)) id t ((V_hit, of_bool true) :: l0) now
                else Some s1
      | Throttle r =>
          let l1 := (V_last, VD (mlast s1 id)) :: (V_now, VD now) :: l0 in
          if b && rate_passed r (inside l1 (menv s1)) (mlast s1 id) now
          then print_at (mkM (mg s1) (mhit s1) (set_nat (mlast s1) id now) (menv s1) (mout s1)) id t
                        ((V_last, VD now) :: (V_now, VD now) :: l0) now
          else Some s1
      end
  end.

(** ** The generated macros (macros_generated.hpp): SM_<LEVEL>[_STREAM][_COND|_ONCE|_THROTTLE][_NAMED].  None: the macro is
    empty, `#if (SMCONSOLE_MIN_SEVERITY > SMCONSOLE_SEVERITY_<LEVEL>)`; the severities (Levels.hpp:5-15) are the numbers of
    the levels. *)
Record use := mkU { ulevel : level; uvar : variant; uname : option (expr bytes); ustream : bool; uargs : expr bytes }.
(** SMCONSOLE_NAME_PREFIX (macros.h:105-112) is the package name *)
Definition prefixed (package : bytes) (n : option (expr bytes)) : expr bytes :=
  match n with
  | None => pure package
  | Some x => fun e => match x e with Some (e', m) => Some (e', package ++ str "." ++ m) | None => None end
  end.
Definition expand (min : nat) (package : bytes) (u : use) : option stmt :=
  if ulevel u <? min then None
  else Some (mkS (uvar u) (LConst (ulevel u)) (prefixed package (uname u)) (ustream u) (uargs u)).

(** ** Programs: calls of the logging functions and executions of log statements at clock readings *)
Inductive action := Call (o : op) | Exec (id : nat) (now : f64).
(** the source: which macro use each statement is *)
Definition source := nat -> use.
Definition act (min : nat) (package : bytes) (src : source) (s : mstate) (a : action) : option mstate :=
  match a with
  | Call o => Some (mkM (fst (exec (mg s) o)) (mhit s) (mlast s) (menv s) (mout s))
  | Exec id now => match expand min package (src id) with
                   | None => Some s
                   | Some t => exec_stmt s id t now
                   end
  end.
Fixpoint acts (min : nat) (package : bytes) (src : source) (s : mstate) (l : list action) : option mstate :=
  match l with
  | [] => Some s
  | a :: r => match act min package src s a with Some s' => acts min package src s' r | None => None end
  end.
