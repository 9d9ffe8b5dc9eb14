(** Model of logging from Python: log, logNamed and the convenience functions of sm_python/python/sm/__init__.py:12-85, over rawLog and rawLogNamed of
    sm_python/src/Logging.cpp:6-34 and the level names it exports (42-54).  Python strings are their UTF-8 bytes.  Not modelled: what the logger does
    with the event (an exception it throws becomes a Python exception; the print mutex and the shutdown flag are not consulted). *)
From Verif Require Export Logging_Model.
From Verif Require Import Strings_Model PTree_Model Bytes.
Open Scope nat_scope.

(** a level argument: a LoggingLevel, or a plain int, which compares with a LoggingLevel but is not converted to one *)
Inductive levelarg := PLevel (l : level) | PInt (z : Z).
Definition arg_value (a : levelarg) : Z := match a with PLevel l => Z.of_nat l | PInt z => z end.
(** a stack frame: file name, line number, function *)
Record pyframe := mkF { ffile : bytes; fline : Z; ffunction : bytes }.
(** what a call does: nothing, raises, hands an event to the logger *)
Inductive pyres := Silent | Raised | Delivered (e : event).

Section PyLog.
  (** the time the logger reports and the id of the thread *)
  Variables time thread : bytes.

  (** smLogNamed (Logging.cpp:6-25) called from Python; a plain int is refused by Boost.Python *)
  Definition rawLogNamed (g : shared) (name : bytes) (a : levelarg) (f : pyframe) (msg : bytes) : pyres :=
    match a with
    | PInt _ => Raised
    | PLevel l => if negb (mem (addDefaultPrefixIfMissing name) (gstreams g)) then Silent
                  else Delivered (mkE (c_str name) l (c_str (ffile f)) (fline f) (c_str (ffunction f)) (c_str msg) time thread)
    end.
  (** smLog (27-32) *)
  Definition rawLog (g : shared) (a : levelarg) (f : pyframe) (msg : bytes) : pyres := rawLogNamed g (str "sm") a f msg.

  (** log (__init__.py:12-18): [stack] is inspect.stack(), innermost first: the frame of log itself, then its callers *)
  Definition py_log (g : shared) (stack : list pyframe) (a : levelarg) (msg : bytes) (stackdepth : nat) : pyres :=
    if (arg_value a <? Z.of_nat (glevel g))%Z then Silent
    else match nth_error stack stackdepth with None => Raised | Some f => rawLog g a f msg end.
  (** logNamed (20-26) *)
  Definition py_logNamed (g : shared) (stack : list pyframe) (name : bytes) (a : levelarg) (msg : bytes) (stackdepth : nat) : pyres :=
    if (arg_value a <? Z.of_nat (glevel g))%Z then Silent
    else match nth_error stack stackdepth with None => Raised | Some f => rawLogNamed g name a f msg end.

  (** the attributes of LoggingLevel (Logging.cpp:42-54) *)
  Definition level_attr (n : bytes) : option level :=
    if bytes_eqb n (str "All") then Some 0 else if bytes_eqb n (str "Finest") then Some 1 else if bytes_eqb n (str "Verbose") then Some 2
    else if bytes_eqb n (str "Finer") then Some 3 else if bytes_eqb n (str "Trace") then Some 4 else if bytes_eqb n (str "Fine") then Some 5
    else if bytes_eqb n (str "Debug") then Some 6 else if bytes_eqb n (str "Info") then Some 7 else if bytes_eqb n (str "Warn") then Some 8
    else if bytes_eqb n (str "Error") then Some 9 else if bytes_eqb n (str "Fatal") then Some 10 else None.
  (** the convenience functions and the attribute each one uses (28-56) *)
  Definition log_functions : list (bytes * bytes) :=
    [(str "logFinest", str "Finest"); (str "logVerbose", str "FineVerbose"); (str "logFiner", str "Finer"); (str "logTrace", str "Trace");
     (str "logFine", str "Fine"); (str "logInfo", str "Info"); (str "logDebug", str "Debug"); (str "logWarn", str "Warn");
     (str "logFatal", str "Fatal"); (str "logError", str "Error")].
  (** (59-87) *)
  Definition named_functions : list (bytes * bytes) :=
    [(str "logFinestNamed", str "Finest"); (str "logVerboseNamed", str "Verbose"); (str "logFinerNamed", str "Finer"); (str "logTraceNamed", str "Trace");
     (str "logFineNamed", str "Fine"); (str "logInfoNamed", str "Info"); (str "logDebugNamed", str "Debug"); (str "logWarnNamed", str "Warn");
     (str "logFatalNamed", str "Fatal"); (str "logErrorNamed", str "Error")].
  (** [callers]: the frames of the caller of the function and of its callers; the function and log add one each ([own]) *)
  Definition call_log (g : shared) (own : pyframe * pyframe) (callers : list pyframe) (fn : bytes) (msg : bytes) : pyres :=
    match assoc fn log_functions with
    | None => Raised
    | Some a => match level_attr a with
                | None => Raised
                | Some l => py_log g (snd own :: fst own :: callers) (PLevel l) msg 2
                end
    end.
  Definition call_logNamed (g : shared) (own : pyframe * pyframe) (callers : list pyframe) (fn : bytes) (name msg : bytes) : pyres :=
    match assoc fn named_functions with
    | None => Raised
    | Some a => match level_attr a with
                | None => Raised
                | Some l => py_logNamed g (snd own :: fst own :: callers) name (PLevel l) msg 2
                end
    end.
End PyLog.
