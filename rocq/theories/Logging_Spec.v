(** Specification vocabulary for logging: what a history of calls means, without the cached flags. *)
From Verif Require Export Logging_Model.
From Verif Require Import Strings_Model PTree_Model Bytes.
Open Scope nat_scope.

(** the threshold after a history: the last setLevel, Info at the start *)
Definition level_after (h : list op) : level := fold_left (fun l o => match o with SetLevel x => x | _ => l end) h Info.
(** is the stream enabled after a history: the last enable/disable of that (prefixed) name; at the start only "sm" *)
Definition stream_on (h : list op) (n : bytes) : bool :=
  fold_left (fun b o => match o with
                        | Enable m => if bytes_eqb n (addDefaultPrefixIfMissing m) then true else b
                        | Disable m => if bytes_eqb n (addDefaultPrefixIfMissing m) then false else b
                        | _ => b
                        end) h (bytes_eqb n (str "sm")).
(** every execution of statement [id] in the history uses the stream name [n] *)
Definition named (h : list op) (id : nat) (n : bytes) : Prop := forall m l c, In (Log id m l c) h -> m = n.
(** what a statement should do: [] is the unnamed stream *)
Definition wanted (h : list op) (n : bytes) (l : level) (cond : bool) : bool :=
  cond && (level_after h <=? l) && (match n with [] => true | _ => stream_on h n end).
(** what each call of a history answers: for log statements whether the message is emitted *)
Definition answer (h : list op) (o : op) : option bool := snd (exec (run g0 h) o).

(** Formats: literal pieces and tokens *)
Definition letters_only (n : bytes) : Prop := n <> [] /\ Forall (fun c => is_alpha c = true) n.
Definition token_text (n : bytes) : bytes := str "${" ++ n ++ str "}".
Definition has_token (s : bytes) : Prop := exists a n b, letters_only n /\ s = a ++ token_text n ++ b.
(** p0 ${n1} p1 ${n2} p2 ... *)
Fixpoint format_text (p : bytes) (l : list (bytes * bytes)) : bytes :=
  match l with [] => p | (n, q) :: r => p ++ token_text n ++ format_text q r end.
Fixpoint format_ok (p : bytes) (l : list (bytes * bytes)) : Prop :=
  ~ has_token p /\ match l with [] => True | (n, q) :: r => letters_only n /\ format_ok q r end.
(** what a token shows *)
Definition level_text (l : level) : bytes :=
  match l with
  | 0 => str "  ALL" | 1 => str "FINES" | 2 => str "VERBO" | 3 => str "FINER" | 4 => str "TRACE" | 5 => str " FINE" | 6 => str "DEBUG"
  | 7 => str " INFO" | 8 => str " WARN" | 9 => str "ERROR" | 10 => str "FATAL" | _ => str "UNKNO"
  end.
Definition known (n : bytes) : bool :=
  existsb (bytes_eqb n) [str "severity"; str "message"; str "time"; str "thread"; str "file"; str "line"; str "function"; str "streamname"].
Definition shows (extra : list (bytes * bytes)) (e : event) (n v : bytes) : Prop :=
  (n = str "severity" /\ v = level_text (elevel e)) \/ (n = str "message" /\ v = emessage e) \/ (n = str "time" /\ v = etime e) \/
  (n = str "thread" /\ v = ethread e) \/ (n = str "file" /\ v = efile e) \/ (n = str "line" /\ v = print_int (eline e)) \/
  (n = str "function" /\ v = efunction e) \/ (n = str "streamname" /\ v = estream e) \/
  (known n = false /\ exists a b, extra = a ++ (n, v) :: b /\ forall k w, In (k, w) a -> k <> n) \/
  (known n = false /\ (forall k w, In (k, w) extra -> k <> n) /\ v = token_text n).
Inductive formatted (extra : list (bytes * bytes)) (e : event) : bytes -> list (bytes * bytes) -> bytes -> Prop :=
| F_end p : formatted extra e p [] p
| F_tok p n q r v out : shows extra e n v -> formatted extra e q r out -> formatted extra e p ((n, q) :: r) (p ++ v ++ out).
(** the terminal colour codes, reset, newline *)
Definition color_code (l : level) : bytes :=
  match l with
  | 0 | 1 | 2 | 3 | 4 | 5 => str "[92m" | 6 => str "[32m" | 7 => str "[0m" | 8 => str "[33m" | 9 => str "[31m" | 10 => str "[91m" | _ => str "[0m"
  end.
