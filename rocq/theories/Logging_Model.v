(** Model of sm_logging: src/LoggingGlobals.cpp, src/Levels.cpp, src/Formatter.cpp, include/sm/logging/{Levels,LogLocation,
    console,Tokens}.hpp.  Not modelled: printf formatting (vformatToBuffer), the output stream, the environment variable
    SMCONSOLE_FORMAT, (the macros themselves: LogMacro_Model). *)
From Verif Require Export Bytes.
From Verif Require Import Float64 Timer_Model Strings_Model PTree_Model.
Open Scope nat_scope.

(** ** Levels (Levels.hpp:26-41): All = 0 ... Fatal = 10, Count = 11 *)
Definition level := nat.
Definition Info : level := 7.
Definition Count : level := 11.
(** ::tolower in the C locale *)
Definition lower (c : byte) : byte := if (N.leb 65 c && N.leb c 90)%bool then (c + 32)%N else c.
(** fromString (Levels.cpp:12-43); the error message for unknown text is not modelled *)
Definition fromString (s : bytes) : level :=
  let l := map lower s in
  if bytes_eqb l (str "all") then 0
  else if bytes_eqb l (str "finest") then 1
  else if bytes_eqb l (str "verbose") then 2
  else if bytes_eqb l (str "finer") then 3
  else if bytes_eqb l (str "trace") then 4
  else if bytes_eqb l (str "fine") then 5
  else if bytes_eqb l (str "debug") then 6
  else if bytes_eqb l (str "info") then 7
  else if bytes_eqb l (str "warn") then 8
  else if bytes_eqb l (str "error") then 9
  else if bytes_eqb l (str "fatal") then 10
  else Info.

(** addDefaultPrefixIfMissing (LoggingGlobals.cpp:274-282), with the default package name sm *)
Definition addDefaultPrefixIfMissing (name : bytes) : bytes :=
  if bytes_eqb (firstn 3 name) (str "sm.") then name
  else if negb (bytes_eqb name (str "sm")) then str "sm." ++ name
  else name.

(** ** Log locations and the global tables *)
(** LogLocation (LogLocation.hpp:6-16) *)
Record location := mkLoc { linit : bool; lenabled : bool; llevel : level; lname : bytes }.
Definition loc0 : location := mkLoc false false Count [].
Definition with_flag (l : location) (b : bool) : location := mkLoc (linit l) b (llevel l) (lname l).
Definition with_level (l : location) (v : level) : location := mkLoc (linit l) (lenabled l) v (lname l).
Definition with_init (l : location) : location := mkLoc true (lenabled l) (llevel l) (lname l).
Definition mem (n : bytes) (l : list bytes) : bool := existsb (bytes_eqb n) l.
(** _level, _namedStreamsEnabled (as a list), the static locations (one per log statement), _log_locations *)
Record shared := mkG { glevel : level; gstreams : list bytes; gtable : nat -> location; greg : list nat }.
Definition upd (t : nat -> location) (id : nat) (l : location) : nat -> location := fun j => if Nat.eqb j id then l else t j.
Definition set_loc (g : shared) (id : nat) (l : location) : shared := mkG (glevel g) (gstreams g) (upd (gtable g) id l) (greg g).
Definition set_level (g : shared) (l : level) : shared := mkG l (gstreams g) (gtable g) (greg g).
Definition set_streams (g : shared) (s : list bytes) : shared := mkG (glevel g) s (gtable g) (greg g).
(** the constructor (LoggingGlobals.cpp:11-18) *)
Definition g0 : shared := mkG Info [str "sm"] (fun _ => loc0) [].
(** std::set insert and erase *)
Definition insert (n : bytes) (s : list bytes) : list bytes := if mem n s then s else n :: s.
Definition erase (n : bytes) (s : list bytes) : list bytes := filter (fun x => negb (bytes_eqb n x)) s.

(** checkLogLocationEnabledNoLock (41-43): the value written to _loggerEnabled *)
Definition enabled_value (g : shared) (l : location) : bool :=
  (glevel g <=? llevel l) && (match lname l with [] => true | _ => mem (lname l) (gstreams g) end).
Definition check (g : shared) (id : nat) : shared := set_loc g id (with_flag (gtable g id) (enabled_value g (gtable g id))).

(** ** One thread: API calls as functions *)
(** notifyLoggerLevelsChanged (87-99) *)
Definition notify (g : shared) : shared := fold_left check (greg g) g.
(** setLevel (240-248), enableNamedStream (109-113), disableNamedStream (115-123) of LoggingGlobals *)
Definition setLevel (g : shared) (l : level) : shared := if Nat.eqb l (glevel g) then g else notify (set_level g l).
Definition enableStream (g : shared) (n : bytes) : shared := notify (set_streams g (insert n (gstreams g))).
Definition disableStream (g : shared) (n : bytes) : shared :=
  if mem n (gstreams g) then notify (set_streams g (erase n (gstreams g))) else g.
(** initializeLogLocation (46-62) *)
Definition initialize (g : shared) (id : nat) (name : bytes) (l : level) : shared :=
  if linit (gtable g id) then g
  else let g1 := mkG (glevel g) (gstreams g) (upd (gtable g) id (mkLoc false (lenabled (gtable g id)) l name)) (greg g ++ [id]) in
       let g2 := check g1 id in set_loc g2 id (with_init (gtable g2 id)).
(** SMCONSOLE_DEFINE_LOCATION (console.hpp:67-78): the flag `enabled` for the statement [id] *)
Definition define_location (g : shared) (id : nat) (name : bytes) (l : level) (cond : bool) : shared * bool :=
  let g1 := if linit (gtable g id) then g else initialize g id name l in
  let g2 := if Nat.eqb (llevel (gtable g1 id)) l then g1 else check (set_loc g1 id (with_level (gtable g1 id) l)) id in
  (g2, lenabled (gtable g2 id) && cond).
(** The calls a program makes.  The free functions add the default prefix (284-295). *)
Inductive op :=
| SetLevel (l : level)
| Enable (n : bytes)
| Disable (n : bytes)
| Log (id : nat) (name : bytes) (l : level) (cond : bool).
Definition exec (g : shared) (o : op) : shared * option bool :=
  match o with
  | SetLevel l => (setLevel g l, None)
  | Enable n => (enableStream g (addDefaultPrefixIfMissing n), None)
  | Disable n => (disableStream g (addDefaultPrefixIfMissing n), None)
  | Log id name l cond => let '(g', b) := define_location g id name l cond in (g', Some b)
  end.
Fixpoint run (g : shared) (ops : list op) : shared :=
  match ops with [] => g | o :: r => run (fst (exec g o)) r end.

(** ** Many threads.  Every access of a shared variable is a step; a critical section of _named_stream_mutex that contains no
    other lock operation is one step.  Memory is sequentially consistent (in C++ the unprotected reads of _level, _initialized
    and _loggerEnabled are data races). *)
Inductive kont := KReturn | KUnlockS.                                   (* after notify: return, or release _named_stream_mutex *)
Inductive ckont := CNotify (rest : list nat) (k : kont) | CInit (l : level) (c : bool) | CLevel (c : bool).
Inductive pc :=
| PIdle
| PSetLevel (l : level)
| PEnable (n : bytes)
| PDisable (n : bytes)
| PNotify (k : kont)                                                    (* before locking _locations_mutex (89) *)
| PLoop (rest : list nat) (k : kont)                                    (* holding it (91-98) *)
| PCheck (id : nat) (c : ckont)                                         (* before reading _level (42) *)
| PStream (id : nat) (c : ckont)                                        (* before isNamedStreamEnabled (42, 102-107) *)
| PWrite (id : nat) (b : bool) (c : ckont)                              (* before writing _loggerEnabled *)
| PUnlockS                                                              (* end of enable/disableNamedStream *)
| PLog (id : nat) (name : bytes) (l : level) (c : bool)                 (* console.hpp:69 *)
| PInit (id : nat) (name : bytes) (l : level) (c : bool)                (* before locking _locations_mutex (47) *)
| PInitDone (id : nat) (l : level) (c : bool)                           (* before _initialized = true and unlocking (61) *)
| PLevel (id : nat) (l : level) (c : bool)                              (* console.hpp:73 *)
| PSetLoc (id : nat) (l : level) (c : bool)                             (* setLogLocationLevel (64-68) *)
| PRecheck (id : nat) (c : bool)                                        (* checkLogLocationEnabled (70-74) before locking *)
| PUnlockL (id : nat) (c : bool)                                        (* before unlocking *)
| PTest (id : nat) (c : bool).                                          (* console.hpp:78 *)
Definition begin (o : op) : pc :=
  match o with
  | SetLevel l => PSetLevel l
  | Enable n => PEnable (addDefaultPrefixIfMissing n)
  | Disable n => PDisable (addDefaultPrefixIfMissing n)
  | Log id name l c => PLog id name l c
  end.
(** shared data and the owners of _locations_mutex and _named_stream_mutex *)
Record world := mkW { wg : shared; wL : option nat; wS : option nat }.
Definition free_for (o : option nat) (me : nat) : bool := match o with None => true | Some t => Nat.eqb t me end.
(** one step of thread [me]; None: blocked; the emission when a log statement is decided *)
Definition tstep (w : world) (me : nat) (p : pc) : option (world * pc * option (nat * bool)) :=
  let g := wg w in
  let ok w p := Some (w, p, None) in
  let lockL (k : world -> option (world * pc * option (nat * bool))) :=
    match wL w with None => k (mkW g (Some me) (wS w)) | Some _ => None end in
  let after_check c := match c with
                       | CNotify rest k => fun _ => PLoop rest k
                       | CInit l cnd => fun id => PInitDone id l cnd
                       | CLevel cnd => fun id => PUnlockL id cnd
                       end in
  match p with
  | PIdle => None
  | PSetLevel l => if Nat.eqb l (glevel g) then ok w PIdle else ok (mkW (set_level g l) (wL w) (wS w)) (PNotify KReturn)
  | PEnable n => match wS w with None => ok (mkW (set_streams g (insert n (gstreams g))) (wL w) (Some me)) (PNotify KUnlockS) | Some _ => None end
  | PDisable n => match wS w with
                  | None => if mem n (gstreams g) then ok (mkW (set_streams g (erase n (gstreams g))) (wL w) (Some me)) (PNotify KUnlockS)
                            else ok w PIdle
                  | Some _ => None
                  end
  | PNotify k => lockL (fun w' => ok w' (PLoop (greg g) k))
  | PLoop [] KReturn => ok (mkW g None (wS w)) PIdle
  | PLoop [] KUnlockS => ok (mkW g None (wS w)) PUnlockS
  | PLoop (id :: rest) k => ok w (PCheck id (CNotify rest k))
  | PCheck id c => let l := gtable g id in
                   if glevel g <=? llevel l
                   then match lname l with [] => ok w (PWrite id true c) | _ => ok w (PStream id c) end
                   else ok w (PWrite id false c)
  | PStream id c => if free_for (wS w) me then ok w (PWrite id (mem (lname (gtable g id)) (gstreams g)) c) else None
  | PWrite id b c => ok (mkW (set_loc g id (with_flag (gtable g id) b)) (wL w) (wS w)) (after_check c id)
  | PUnlockS => ok (mkW g (wL w) None) PIdle
  | PLog id name l c => if linit (gtable g id) then ok w (PLevel id l c) else ok w (PInit id name l c)
  | PInit id name l c => lockL (fun w' =>
      if linit (gtable g id) then ok w (PLevel id l c)
      else ok (mkW (mkG (glevel g) (gstreams g) (upd (gtable g) id (mkLoc false (lenabled (gtable g id)) l name)) (greg g ++ [id])) (wL w') (wS w'))
              (PCheck id (CInit l c)))
  | PInitDone id l c => ok (mkW (set_loc g id (with_init (gtable g id))) None (wS w)) (PLevel id l c)
  | PLevel id l c => if Nat.eqb (llevel (gtable g id)) l then ok w (PTest id c) else ok w (PSetLoc id l c)
  | PSetLoc id l c => lockL (fun _ => ok (mkW (set_loc g id (with_level (gtable g id) l)) None (wS w)) (PRecheck id c))
  | PRecheck id c => lockL (fun w' => ok w' (PCheck id (CLevel c)))
  | PUnlockL id c => ok (mkW g None (wS w)) (PTest id c)
  | PTest id c => Some (w, PIdle, Some (id, lenabled (gtable g id) && c))
  end.
(** Threads: program counter and the calls still to make; the emissions so far (latest first). *)
Record config := mkC { cw : world; cthreads : list (pc * list op); cout : list (nat * (nat * bool)) }.
Fixpoint replace {A} (n : nat) (x : A) (l : list A) : list A :=
  match l, n with [], _ => [] | _ :: r, O => x :: r | y :: r, S m => y :: replace m x r end.
(** thread [t] takes a step: it begins its next call or continues the current one *)
Definition cstep (c : config) (t : nat) : option config :=
  match nth_error (cthreads c) t with
  | None => None
  | Some (PIdle, []) => None
  | Some (PIdle, o :: r) => Some (mkC (cw c) (replace t (begin o, r) (cthreads c)) (cout c))
  | Some (p, r) => match tstep (cw c) t p with
                   | None => None
                   | Some (w', p', e) => Some (mkC w' (replace t (p', r) (cthreads c))
                       (match e with Some x => (t, x) :: cout c | None => cout c end))
                   end
  end.
Definition start (progs : list (list op)) : config := mkC (mkW g0 None None) (map (fun p => (PIdle, p)) progs) [].
Inductive reachable (progs : list (list op)) : config -> Prop :=
| reach_start : reachable progs (start progs)
| reach_step c t c' : reachable progs c -> cstep c t = Some c' -> reachable progs c'.
Definition finished (c : config) : Prop := Forall (fun th => th = (PIdle, [])) (cthreads c).
Definition quiescent (c : config) : Prop := Forall (fun th => fst th = PIdle) (cthreads c).
Definition stuck (c : config) : Prop := ~ finished c /\ forall t, cstep c t = None.
(** run thread [t] alone *)
Inductive solo (t : nat) : config -> config -> Prop :=
| solo_refl c : solo t c c
| solo_step c c1 c2 : cstep c t = Some c1 -> solo t c1 c2 -> solo t c c2.

(** ** print (LoggingGlobals.cpp:166-228, both overloads).  What the logger's log() does: some log statements of its own (the
    texts), then it returns or throws. *)
Inductive log_end := Returns | ThrowsStd | ThrowsOther.
(** what log() of logger number [lg] does with a message *)
Definition behaviour := nat -> bytes -> list bytes * log_end.
(** _shutting_down, _printing_thread_id (None: no thread), _print_mutex, _logger; what the loggers received: logger, thread,
    message (latest first) *)
Record pstate := mkP { pshut : bool; pprinting : option nat; plock : option nat; plogger : nat; pdelivered : list (nat * (nat * bytes)) }.
Inductive ppc :=
| QIdle
| QCheck1                                         (* before reading _shutting_down (168 / 201) *)
| QCheck2                                         (* before comparing _printing_thread_id (171 / 204) *)
| QLock                                           (* before locking _print_mutex (177 / 215) *)
| QSet                                            (* before _printing_thread_id = this thread (179 / 217) *)
| QLog                                            (* before _logger->log (190 / 220) *)
| QInside (nested : list bytes) (e : log_end)     (* inside the logger, with its log statements still to run *)
| QSelf                                           (* a nested print went on to lock the mutex its own thread owns *)
| QClear                                          (* before resetting _printing_thread_id (198 / 227); then the lock is released *)
| QExit.                                          (* an exception leaves print: the lock is released, nothing else *)
Inductive presult := Printed | Dropped | Thrown.
Definition is_me (o : option nat) (me : nat) : bool := match o with Some t => Nat.eqb t me | None => false end.
(** one step of a thread printing message m *)
Definition pstep (beh : behaviour) (s : pstate) (me : nat) (m : bytes) (p : ppc) : option (pstate * ppc * option presult) :=
  match p with
  | QIdle => None
  | QCheck1 => if pshut s then Some (s, QIdle, Some Dropped) else Some (s, QCheck2, None)
  | QCheck2 => if is_me (pprinting s) me then Some (s, QIdle, Some Dropped) else Some (s, QLock, None)
  | QLock => match plock s with None => Some (mkP (pshut s) (pprinting s) (Some me) (plogger s) (pdelivered s), QSet, None) | Some _ => None end
  | QSet => Some (mkP (pshut s) (Some me) (plock s) (plogger s) (pdelivered s), QLog, None)
  | QLog => let '(nested, e) := beh (plogger s) m in
            Some (mkP (pshut s) (pprinting s) (plock s) (plogger s) ((plogger s, (me, m)) :: pdelivered s), QInside nested e, None)
  | QInside (_ :: nested) e => if pshut s then Some (s, QInside nested e, None)
                               else if is_me (pprinting s) me then Some (s, QInside nested e, None)
                               else Some (s, QSelf, None)
  | QInside [] Returns => Some (s, QClear, None)
  | QInside [] ThrowsStd => Some (s, QClear, None)
  | QInside [] ThrowsOther => Some (s, QExit, None)
  | QSelf => None
  | QClear => Some (mkP (pshut s) None None (plogger s) (pdelivered s), QIdle, Some Printed)
  | QExit => Some (mkP (pshut s) (pprinting s) None (plogger s) (pdelivered s), QIdle, Some Thrown)
  end.
(** Threads: program counter, current message, messages still to print; results so far: thread, message, result (latest first). *)
Record pconfig := mkPC { pst : pstate; pthreads : list (ppc * bytes * list bytes); presults : list (nat * (bytes * presult)) }.
(** A thread steps; or somebody calls shutdown (24-27) or setLogger with a logger (250-256; a null pointer is ignored). *)
Inductive pmove := Thread (t : nat) | Shutdown | SetLogger (lg : nat).
Definition pcstep (beh : behaviour) (c : pconfig) (mv : pmove) : option pconfig :=
  let s := pst c in
  match mv with
  | Shutdown => Some (mkPC (mkP true (pprinting s) (plock s) (plogger s) (pdelivered s)) (pthreads c) (presults c))
  | SetLogger lg => Some (mkPC (mkP (pshut s) (pprinting s) (plock s) lg (pdelivered s)) (pthreads c) (presults c))
  | Thread t =>
      match nth_error (pthreads c) t with
      | None => None
      | Some (QIdle, _, []) => None
      | Some (QIdle, _, m :: r) => Some (mkPC s (replace t (QCheck1, m, r) (pthreads c)) (presults c))
      | Some (p, m, r) => match pstep beh s t m p with
                          | None => None
                          | Some (s', p', e) => Some (mkPC s' (replace t (p', m, r) (pthreads c))
                              (match e with Some x => (t, (m, x)) :: presults c | None => presults c end))
                          end
      end
  end.
Definition pstart (progs : list (list bytes)) : pconfig := mkPC (mkP false None None 0 []) (map (fun p => (QIdle, [], p)) progs) [].
Inductive preach (beh : behaviour) (c0 : pconfig) : pconfig -> Prop :=
| preach_refl : preach beh c0 c0
| preach_step c mv c' : preach beh c0 c -> pcstep beh c mv = Some c' -> preach beh c0 c'.

(** ** SM_LOG_ONCE (console.hpp:135-145) and SM_LOG_THROTTLE (172-183) for one statement: [b] is `enabled` *)
Definition once_step (hit b : bool) : bool * bool := if b && negb hit then (true, true) else (hit, false).
Definition throttle_step (last : f64) (b : bool) (rate now : f64) : f64 * bool :=
  if b && fleb (fadd last rate) now then (now, true) else (last, false).
(** the history of a statement: the executions' inputs, and which of them printed *)
Fixpoint once_run (hit : bool) (h : list bool) : list bool :=
  match h with [] => [] | b :: r => let '(hit', e) := once_step hit b in e :: once_run hit' r end.
Fixpoint throttle_run (last : f64) (rate : f64) (h : list (bool * f64)) : list bool :=
  match h with [] => [] | (b, now) :: r => let '(last', e) := throttle_step last b rate now in e :: throttle_run last' rate r end.

(** ** Formatter *)
(** LoggingEvent (LoggingEvent.hpp) and the thread's id as text *)
Record event := mkE { estream : bytes; elevel : level; efile : bytes; eline : Z; efunction : bytes; emessage : bytes; etime : bytes; ethread : bytes }.
Definition is_letter (c : byte) : bool := (N.leb 65 c && N.leb c 90) || (N.leb 97 c && N.leb c 122).
(** the regular expression \$\{([a-zA-Z]+)[}] anchored at the start of s: the token name and the rest *)
Fixpoint letters (s : bytes) : bytes * bytes :=
  match s with c :: r => if is_letter c then let '(a, b) := letters r in (c :: a, b) else ([], s) | [] => ([], []) end.
Definition match_here (s : bytes) : option (bytes * bytes) :=
  match s with
  | d :: b :: r => if N.eqb d 36 && N.eqb b 123 then
                     match letters r with
                     | (n :: name, e :: rest) => if N.eqb e 125 then Some (n :: name, rest) else None
                     | _ => None
                     end
                   else None
  | _ => None
  end.
(** regex_search: the leftmost match: prefix, token, suffix *)
Fixpoint search (s : bytes) : option (bytes * bytes * bytes) :=
  match match_here s with
  | Some (name, rest) => Some ([], name, rest)
  | None => match s with
            | [] => None
            | c :: r => match search r with Some (p, n, t) => Some (c :: p, n, t) | None => None end
            end
  end.
(** tokens_: FixedToken, or createTokenFromType (Formatter.cpp:15-52) which is kept as the type's name *)
Inductive token := Fixed (s : bytes) | Typed (name : bytes).
(** init (Formatter.cpp:55-102); [fuel] bounds the number of matches, each of which consumes text *)
Fixpoint tokens_of (fuel : nat) (s : bytes) : list token :=
  match fuel with
  | O => [Fixed s]
  | S f => match search s with
           | Some (p, n, t) => Fixed p :: Typed n :: tokens_of f t
           | None => [Fixed s]
           end
  end.
Definition formatter_init (fmt : bytes) : list token := tokens_of (length fmt) (c_str fmt).
(** SeverityToken (Tokens.hpp:93-151) *)
Definition severity (l : level) : bytes :=
  nth l [str "  ALL"; str "FINES"; str "VERBO"; str "FINER"; str "TRACE"; str " FINE"; str "DEBUG"; str " INFO"; str " WARN"; str "ERROR"; str "FATAL"] (str "UNKNO").
(** getString (Tokens.hpp); extra: extra_fixed_tokens_; fields given as const char* end at a NUL *)
Definition assoc (k : bytes) (m : list (bytes * bytes)) : option bytes :=
  match List.find (fun e => bytes_eqb (fst e) k) m with Some (_, v) => Some v | None => None end.
Definition render (extra : list (bytes * bytes)) (e : event) (t : token) : bytes :=
  match t with
  | Fixed s => c_str s
  | Typed n =>
      if bytes_eqb n (str "severity") then severity (elevel e)
      else if bytes_eqb n (str "message") then c_str (emessage e)
      else if bytes_eqb n (str "time") then etime e
      else if bytes_eqb n (str "thread") then ethread e
      else if bytes_eqb n (str "file") then c_str (efile e)
      else if bytes_eqb n (str "line") then print_int (eline e)
      else if bytes_eqb n (str "function") then c_str (efunction e)
      else if bytes_eqb n (str "streamname") then c_str (estream e)
      else match assoc n extra with Some v => c_str v | None => c_str (str "${" ++ n ++ str "}") end
  end.
Definition ESC : byte := 27%N.
(** the colour (Formatter.cpp:104-155) *)
Definition color (l : level) : bytes :=
  if Nat.eqb l 10 then ESC :: str "[91m" else if Nat.eqb l 9 then ESC :: str "[31m" else if Nat.eqb l 8 then ESC :: str "[33m"
  else if Nat.eqb l 7 then ESC :: str "[0m" else if Nat.eqb l 6 then ESC :: str "[32m"
  else if l <=? 5 then ESC :: str "[92m" else ESC :: str "[0m".
(** print (Formatter.cpp:104-177) *)
Definition formatter_print (doColor : bool) (extra : list (bytes * bytes)) (tokens : list token) (e : event) : bytes :=
  (if doColor then color (elevel e) else []) ++ flat_map (render extra e) tokens ++ (if doColor then ESC :: str "[0m" else []) ++ [10%N].
