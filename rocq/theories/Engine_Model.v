(** Model of sm_matlab/include/sm/matlab/Engine.hpp and src/Engine.cpp over a model of the Matlab engine interface: a session with a workspace of
    arrays.  Modelled of Matlab: engOpen, engClose, engPutVariable, engGetVariable, engEvalString, engOutputBuffer, mxCreate..., mxGet..., mxDestroyArray
    as documented.  Not modelled: complex arrays, openCommandLine, the Windows-only members, copying of Engine objects. *)
From Coq Require Import Reals.
From Verif Require Export Bytes Float64.
From Flocq Require Binary Bits.
Open Scope nat_scope.

(** ** Matlab arrays *)
(** the elements: double; 64-bit integers (int64, uint64) by their bit pattern and value; single and narrower integers, by their values;
    logical; char; anything else (cells, structs), by the number of elements *)
Inductive payload := PDouble (l : list f64) | PInt64 (l : list Z) | PNarrow (l : list f64) | PLogical (l : list bool) | PChar (l : bytes) | POther (n : nat).
Record mx := Mx { dims : list nat; pay : payload }.
Definition numel (a : mx) : nat := fold_right Nat.mul 1 (dims a).
Definition mxIsEmpty (a : mx) : bool := Nat.eqb (numel a) 0.
Definition mxIsNumeric (a : mx) : bool := match pay a with PDouble _ | PInt64 _ | PNarrow _ => true | _ => false end.
Definition mxIsChar (a : mx) : bool := match pay a with PChar _ => true | _ => false end.
Definition mxGetM (a : mx) : nat := nth 0 (dims a) 1.
Definition mxGetN (a : mx) : nat := fold_right Nat.mul 1 (tl (dims a)).
(** mxGetElementSize is 8 *)
Definition elementSize8 (a : mx) : bool := match pay a with PDouble _ | PInt64 _ => true | _ => false end.
(** mxGetScalar: the first element as a double *)
Definition mxGetScalar (a : mx) : f64 := match pay a with PDouble l | PNarrow l => hd fzero l | PInt64 l => fofZ (hd 0%Z l) | _ => fzero end.
(** the bytes of the elements taken for doubles (memcpy); None if there are not that many *)
Definition bits_of_Z (z : Z) : f64 := Flocq.IEEE754.Binary.B2BSN _ _ (Flocq.IEEE754.Bits.b64_of_bits (z mod 2 ^ 64)).
Definition as_doubles (a : mx) : option (list f64) := match pay a with PDouble l => Some l | PInt64 l => Some (map bits_of_Z l) | _ => None end.
(** mxGetString: the characters, up to a NUL as seen through char* *)
Fixpoint c_str (s : bytes) : bytes := match s with c :: r => if N.eqb c 0 then [] else c :: c_str r | [] => [] end.
(** mxCreateString(c_str()) *)
Definition mxCreateString (s : bytes) : mx := match c_str s with [] => Mx [0; 0] (PChar []) | t => Mx [1; length t] (PChar t) end.

(** ** the engine object and the world *)
Inductive handle := HUninit | HNull | HOpen.
Definition workspace := bytes -> option mx.
(** the member _engine; whether the session still runs; its workspace; number of blocks (arrays,
    buffers) allocated and not freed; the content of _outputBuffer *)
Record world := World { hnd : handle; running : bool; ws : workspace; live : nat; obuf : bytes }.
Inductive exn := NotInitialized | InvalidName | InvalidType | InvalidSize | NoSuchVariable | EmptyVariable | PutFailed | ExecFailed.
(** results; Undef: an indeterminate pointer is read; NullCall: Matlab is called with a null engine *)
Inductive result (A : Type) := Ret (a : A) | Throw (e : exn) | Undef | NullCall.
Arguments Ret {A}. Arguments Throw {A}. Arguments Undef {A}. Arguments NullCall {A}.

Definition set_var (w : workspace) (n : bytes) (a : mx) : workspace := fun m => if bytes_eqb n m then Some a else w m.
Definition OUTPUT_BUFFER_SIZE := 256.

Section Engine.
  (** what Matlab does: the names it takes for variables, whether it can be started, what a command does to the workspace and prints *)
  Variable matlab_name : bytes -> bool.
  Variable startable : bool.
  Variable eval : bytes -> workspace -> workspace * bytes.

  (** Engine() (Engine.cpp:9-14) *)
  Definition engine_default (w : world) : world := World HNull (running w) (ws w) (live w) (obuf w).
  Definition engOpen (w : world) : world :=
    if startable then World HOpen true (fun _ => None) (live w) (obuf w) else World HNull false (ws w) (live w) (obuf w).
  (** Engine(bool) (16-29): _engine is not initialised when the argument is false; engOutputBuffer takes a null engine *)
  Definition engine_start (start : bool) (w : world) : world := if start then engOpen w else World HUninit (running w) (ws w) (live w) (obuf w).
  (** isInitialized (71-74) *)
  Definition isInitialized (w : world) : result bool := match hnd w with HUninit => Undef | HNull => Ret false | HOpen => Ret true end.
  (** initialize (48-59) *)
  Definition initialize (w : world) : world * result bool :=
    match hnd w with
    | HUninit => (w, Undef)
    | HOpen => (w, Ret true)
    | HNull => let w' := engOpen w in (w', Ret startable)
    end.
  (** stop (61-69): engClose returns 0 if the session was running *)
  Definition stop (w : world) : world * result bool :=
    match hnd w with
    | HUninit => (w, Undef)
    | HNull => (w, Ret true)
    | HOpen => (World HNull false (ws w) (live w) (obuf w), Ret (running w))
    end.

  (** assertIsInitialized (369-372) and assertValidVariableName (361-366).  name[0] of an empty string is NUL. *)
  Definition assertIsInitialized (w : world) : result unit := match hnd w with HUninit => Undef | HNull => Throw NotInitialized | HOpen => Ret tt end.
  Definition name_char (c : N) : bool := is_alpha c || is_digit c || N.eqb c 95.
  Definition assertValidVariableName (n : bytes) : result unit :=
    if negb (forallb name_char n) then Throw InvalidName else if is_digit (hd 0%N n) then Throw InvalidName else Ret tt.
  Definition then_ {A B} (r : result A) (w : world) (k : A -> world * result B) : world * result B :=
    match r with Ret a => k a | Throw e => (w, Throw e) | Undef => (w, Undef) | NullCall => (w, NullCall) end.
  Definition add_live (w : world) (n : nat) : world := World (hnd w) (running w) (ws w) (live w + n) (obuf w).
  Definition sub_live (w : world) : world := World (hnd w) (running w) (ws w) (live w - 1) (obuf w).

  (** engGetVariable creates a copy of the array *)
  Definition engGetVariable (w : world) (n : bytes) : option mx := if running w then ws w n else None.
  (** engPutVariable: the array of the caller is copied *)
  Definition engPutVariable (w : world) (n : bytes) (a : mx) : option world :=
    if running w && matlab_name n then Some (World (hnd w) (running w) (set_var (ws w) n a) (live w) (obuf w)) else None.

  (** put of an array made for the call (putEigen, the put overloads): created, sent, destroyed unless sending failed *)
  Definition put_array (w : world) (n : bytes) (a : mx) : world * result unit :=
    then_ (assertIsInitialized w) w (fun _ => then_ (assertValidVariableName n) w (fun _ =>
    let w1 := add_live w 1 in
    match engPutVariable w1 n a with Some w2 => (sub_live w2, Ret tt) | None => (w1, Throw PutFailed) end)).
  (** put of a string (Engine.cpp:210-223), a bool (226-239), a number (Engine.hpp:214-228, converted to double), putEigen (Engine.hpp:186-212: column-major doubles) *)
  Definition put_string (w : world) (n s : bytes) := put_array w n (mxCreateString s).
  Definition put_bool (w : world) (n : bytes) (b : bool) := put_array w n (Mx [1; 1] (PLogical [b])).
  Definition put_double (w : world) (n : bytes) (d : f64) := put_array w n (Mx [1; 1] (PDouble [d])).
  Definition put_int (w : world) (n : bytes) (z : Z) := put_double w n (fofZ z).
  Definition putEigen (w : world) (n : bytes) (r c : nat) (l : list f64) := put_array w n (Mx [r; c] (PDouble l)).

  (** reading: false if there is no such variable; on an exception the array is not destroyed *)
  Definition get_array {A} (w : world) (n : bytes) (read : mx -> result A) : world * result (option A) :=
    then_ (assertIsInitialized w) w (fun _ => then_ (assertValidVariableName n) w (fun _ =>
    match engGetVariable w n with
    | None => (w, Ret None)
    | Some a => let w1 := add_live w 1 in
                match read a with Ret v => (sub_live w1, Ret (Some v)) | Throw e => (w1, Throw e) | Undef => (w1, Undef) | NullCall => (w1, NullCall) end
    end)).
  (** get of a double (245-269) *)
  Definition get_double (w : world) (n : bytes) := get_array w n (fun a =>
    if negb (mxIsNumeric a) then Throw InvalidType else if mxIsEmpty a then Throw EmptyVariable else if negb (Nat.eqb (numel a) 1) then Throw InvalidType else Ret (mxGetScalar a)).
  (** get of a string (271-298): the character buffer is never freed *)
  Definition get_string (w : world) (n : bytes) :=
    let '(w', r) := get_array w n (fun a =>
      if mxIsEmpty a then Throw EmptyVariable else match pay a with PChar l => Ret (c_str l) | _ => Throw InvalidType end) in
    (match r with Ret (Some _) => add_live w' 1 | _ => w' end, r).
  (** get of a bool (300-324) *)
  Definition get_bool (w : world) (n : bytes) := get_array w n (fun a =>
    match pay a with
    | PLogical l => if mxIsEmpty a then Throw EmptyVariable else if negb (Nat.eqb (numel a) 1) then Throw InvalidType else Ret (hd false l)
    | _ => Throw InvalidType end).
  (** getEigen (326-359): rows, columns and the elements in column-major order *)
  Definition getEigen (w : world) (n : bytes) := get_array w n (fun a =>
    if negb (mxIsNumeric a) then Throw InvalidType else if mxIsEmpty a then Throw EmptyVariable else if negb (Nat.eqb (length (dims a)) 2) then Throw InvalidSize
    else if negb (elementSize8 a) then Throw InvalidType else match as_doubles a with Some l => Ret (mxGetM a, mxGetN a, l) | None => Undef end).

  (** the testers (143-204): the array is never destroyed *)
  Definition test_array {A} (w : world) (n : bytes) (read : mx -> A) : world * result (option A) :=
    then_ (assertIsInitialized w) w (fun _ => then_ (assertValidVariableName n) w (fun _ =>
    match engGetVariable w n with None => (w, Ret None) | Some a => (add_live w 1, Ret (Some (read a))) end)).
  Definition or_throw {A} (r : world * result (option A)) : world * result A :=
    let '(w, x) := r in (w, match x with Ret (Some a) => Ret a | Ret None => Throw NoSuchVariable | Throw e => Throw e | Undef => Undef | NullCall => NullCall end).
  Definition isScalar (w : world) (n : bytes) := or_throw (test_array w n (fun a => Nat.eqb (numel a) 1)).
  Definition isEmpty (w : world) (n : bytes) := or_throw (test_array w n mxIsEmpty).
  Definition isCharOrString (w : world) (n : bytes) := or_throw (test_array w n mxIsChar).
  Definition getDimensions (w : world) (n : bytes) := test_array w n (fun a => (mxGetM a, mxGetN a)).
  (** exists (143-150): without assertIsInitialized *)
  Definition exists_ (w : world) (n : bytes) : world * result bool :=
    then_ (assertValidVariableName n) w (fun _ =>
    match hnd w with
    | HUninit => (w, Undef) | HNull => (w, NullCall)
    | HOpen => match engGetVariable w n with None => (w, Ret false) | Some _ => (add_live w 1, Ret true) end
    end).

  (** executeCommand (91-107): engEvalString puts the output, cut to the size of the buffer, into _outputBuffer, whose last byte is NUL; the last
      character is dropped *)
  Definition executeCommand (w : world) (cmd : bytes) : world * result bytes :=
    then_ (assertIsInitialized w) w (fun _ =>
    if running w then
      let '(ws', out) := eval (c_str cmd) (ws w) in
      let buf := firstn OUTPUT_BUFFER_SIZE out in
      let s := c_str buf in
      (World (hnd w) (running w) ws' (live w) buf, Ret (firstn (length s - 1) s))
    else (w, Throw ExecFailed)).
  (** changeWorkingDirectory (109-112) *)
  Definition changeWorkingDirectory (w : world) (d : bytes) := executeCommand w (str "cd ('" ++ d ++ str "');").
  (** good (76-89) *)
  Definition good (w : world) : world * result bool :=
    match hnd w with
    | HUninit => (w, Undef) | HNull => (w, Ret false)
    | HOpen => match executeCommand w (str "disp('sm::Matlab Engine-Test')") with
               | (w', Ret s) => (w', Ret (bytes_eqb s (str ">> sm::Matlab Engine-Test")))
               | (w', Throw ExecFailed) => (w', Ret false)
               | (w', Throw e) => (w', Throw e) | (w', Undef) => (w', Undef) | (w', NullCall) => (w', NullCall)
               end
    end.
  (** the destructor (39-46), release build *)
  Definition destroy (w : world) : world * result unit :=
    match hnd w with HUninit => (w, Undef) | HNull => (w, Ret tt) | HOpen => (World HNull false (ws w) (live w) (obuf w), Ret tt) end.
End Engine.
