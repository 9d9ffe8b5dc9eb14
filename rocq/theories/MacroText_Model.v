(** Model of the files behind the severity macros of sm_logging: the checked-in include/sm/logging/macros_generated.hpp (text in MacroText_Header),
    the script scripts/generate_macros.py that is to write it, Levels.hpp (5-16), and the part of the C++ preprocessor that reads them: comments,
    #if a > b / #else / #endif, #define of function-like macros, and one replacement of a macro call.  Not modelled: line continuation, # and ##
    (the file has neither), the macro expansion of the arguments themselves and the rescanning of the result (the SM_LOG macros of console.hpp:
    LogMacro_Model). *)
From Verif Require Export Bytes.
From Verif Require Export MacroText_Header.
Open Scope bool_scope.

(** ** Texts *)
Definition nl : N := 10%N.
Definition join_lines (l : list string) : bytes := flat_map (fun s => str s ++ [nl]) l.
(** macros_generated.hpp as it is checked in *)
Definition header : bytes := join_lines header_lines.

(** Translation phase 3: a comment becomes one space; string literals are not searched for comments *)
Inductive mode := Code | InString | LineComment | BlockComment.
Fixpoint strip (m : mode) (l : bytes) : bytes :=
  match l with
  | [] => []
  | c :: r =>
    match m with
    | Code =>
        if N.eqb c 47 then                                        (* / *)
          match r with
          | d :: r' => if N.eqb d 47 then 32%N :: strip LineComment r'
                       else if N.eqb d 42 then 32%N :: strip BlockComment r' else c :: strip Code r
          | [] => [c]
          end
        else if N.eqb c 34 then c :: strip InString r else c :: strip Code r
    | InString =>
        if N.eqb c 92 then c :: match r with d :: r' => d :: strip InString r' | [] => [] end
        else if N.eqb c 34 then c :: strip Code r else c :: strip InString r
    | LineComment => if N.eqb c nl then c :: strip Code r else strip LineComment r
    | BlockComment =>
        if N.eqb c 42 then match r with d :: r' => if N.eqb d 47 then strip Code r' else strip BlockComment r | [] => [] end
        else strip BlockComment r
    end
  end.
Fixpoint split_lines (cur : bytes) (l : bytes) : list bytes :=
  match l with
  | [] => match cur with [] => [] | _ => [rev cur] end
  | c :: r => if N.eqb c nl then rev cur :: split_lines [] r else split_lines (c :: cur) r
  end.

(** Preprocessing tokens: names, numbers, string literals, `...`, and single characters; with a note whether white space comes before *)
Record tok := mkT { spaced : bool; txt : bytes }.
Definition is_idc (c : N) : bool := is_alnum c || N.eqb c 95.
Fixpoint take_while (p : N -> bool) (l : bytes) : bytes * bytes :=
  match l with [] => ([], []) | c :: r => if p c then let (a, b) := take_while p r in (c :: a, b) else ([], l) end.
Fixpoint take_string (l : bytes) : bytes * bytes :=
  match l with
  | [] => ([], [])
  | c :: r => if N.eqb c 34 then ([c], r)
              else if N.eqb c 92 then match r with d :: r' => let (a, b) := take_string r' in (c :: d :: a, b) | [] => ([c], []) end
              else let (a, b) := take_string r in (c :: a, b)
  end.
Fixpoint lex (fuel : nat) (sp : bool) (l : bytes) : list tok :=
  match fuel, l with
  | O, _ | _, [] => []
  | S f, c :: r =>
      if is_space c then lex f true r
      else if is_idc c then let (a, b) := take_while is_idc l in mkT sp a :: lex f false b
      else if N.eqb c 34 then let (a, b) := take_string r in mkT sp (c :: a) :: lex f false b
      else match l with
           | 46%N :: 46%N :: 46%N :: r3 => mkT sp (str "...") :: lex f false r3
           | _ => mkT sp [c] :: lex f false r
           end
  end.
Definition tokens (l : bytes) : list tok := lex (List.length l) false l.

(** ** Directives *)
(** a function-like macro: named parameters, whether `...` follows, the replacement list *)
Record macro := mkM { params : list bytes; variadic : bool; body : list bytes }.
Inductive dir := DIf (a b : bytes) | DElse | DEndif | DDefine (name : bytes) (m : macro) | DText (t : list bytes) | DBad.
Definition is (t : tok) (s : string) : bool := bytes_eqb (txt t) (str s).
Fixpoint parse_params (l : list tok) (acc : list bytes) : option (list bytes * bool * list tok) :=
  match l with
  | t :: u :: r =>
      if is t "..." then if is u ")" then Some (rev acc, true, r) else None
      else if is u ")" then Some (rev (txt t :: acc), false, r)
      else if is u "," then parse_params r (txt t :: acc) else None
  | _ => None
  end.
Definition parse_line (l : bytes) : dir :=
  match tokens l with
  | h :: d :: r =>
      if is h "#" then
        if is d "if" then
          match r with
          | [o; a; g; b; c] => if is o "(" && is g ">" && is c ")" then DIf (txt a) (txt b) else DBad
          | _ => DBad
          end
        else if is d "else" then match r with [] => DElse | _ => DBad end
        else if is d "endif" then match r with [] => DEndif | _ => DBad end
        else if is d "define" then
          match r with
          | n :: p :: r' =>
              if is p "(" && negb (spaced p)
              then match parse_params r' [] with Some (ps, v, bd) => DDefine (txt n) (mkM ps v (map txt bd)) | None => DBad end
              else DBad
          | _ => DBad
          end
        else DBad
      else DText (map txt (h :: d :: r))
  | l => DText (map txt l)
  end.
Definition directives (text : bytes) : list dir := map parse_line (split_lines [] (strip Code text)).

(** the open conditionals, innermost first: is this branch compiled; and the macros, latest first; None: a directive that is wrong or not modelled.
    [vals]: the integers the names in the #if lines stand for (an undefined name is 0). *)
Record pp := mkP { conds : list bool; defs : list (bytes * macro) }.
Definition live (s : pp) : bool := forallb (fun b => b) (conds s).
Definition step (vals : bytes -> Z) (s : option pp) (d : dir) : option pp :=
  match s with
  | None => None
  | Some s =>
    match d with
    | DIf a b => Some (mkP (Z.gtb (vals a) (vals b) :: conds s) (defs s))
    | DElse => match conds s with b :: r => Some (mkP (negb b :: r) (defs s)) | [] => None end
    | DEndif => match conds s with _ :: r => Some (mkP r (defs s)) | [] => None end
    | DDefine n m => Some (if live s then mkP (conds s) ((n, m) :: defs s) else s)
    | DText [] => Some s
    | DText _ | DBad => None
    end
  end.
Definition preprocess (vals : bytes -> Z) (text : bytes) : option pp :=
  match fold_left (step vals) (directives text) (Some (mkP [] [])) with
  | Some s => match conds s with [] => Some s | _ => None end
  | None => None
  end.
Fixpoint lookup (n : bytes) (l : list (bytes * macro)) : option macro :=
  match l with [] => None | (k, m) :: r => if bytes_eqb k n then Some m else lookup n r end.

(** ** One replacement of a call  NAME ( arguments )  *)
(** the arguments: split at the commas outside parentheses *)
Fixpoint collect (depth : nat) (cur : list bytes) (acc : list (list bytes)) (l : list bytes) : option (list (list bytes) * list bytes) :=
  match l with
  | [] => None
  | t :: r =>
      if bytes_eqb t (str "(") then collect (S depth) (t :: cur) acc r
      else if bytes_eqb t (str ")") then
        match depth with O => Some (rev (rev cur :: acc), r) | S d => collect d (t :: cur) acc r end
      else if bytes_eqb t (str ",") && Nat.eqb depth 0 then collect depth [] (rev cur :: acc) r
      else collect depth (t :: cur) acc r
  end.
Fixpoint with_commas (l : list (list bytes)) : list bytes :=
  match l with [] => [] | [a] => a | a :: r => a ++ str "," :: with_commas r end.
Fixpoint bind (ps : list bytes) (args : list (list bytes)) (t : bytes) : option (list bytes) :=
  match ps, args with p :: ps', a :: args' => if bytes_eqb p t then Some a else bind ps' args' t | _, _ => None end.
Definition replace (m : macro) (args : list (list bytes)) : option (list bytes) :=
  let k := List.length (params m) in
  if (if variadic m then Nat.leb k (List.length args) else Nat.eqb k (List.length args))
  then Some (flat_map (fun t => match bind (params m) args t with
                                | Some a => a
                                | None => if variadic m && bytes_eqb t (str "__VA_ARGS__") then with_commas (skipn k args) else [t]
                                end) (body m))
  else None.
(** a statement that begins with a macro call *)
Definition expand_call (defs : list (bytes * macro)) (l : list bytes) : option (list bytes) :=
  match l with
  | n :: p :: r =>
      match lookup n defs with
      | None => Some l                                            (* no macro: the compiler sees the name *)
      | Some m => if bytes_eqb p (str "(")
                  then match collect 0 [] [] r with
                       | Some (args, rest) => match replace m args with Some b => Some (b ++ rest) | None => None end
                       | None => None
                       end
                  else Some l
      end
  | _ => Some l
  end.

(** ** The generator *)
(** Python's format % (a, b): each %s takes the next argument *)
Fixpoint py_format (f : bytes) (args : list bytes) : option bytes :=
  match f with
  | [] => match args with [] => Some [] | _ => None end
  | 37%N :: 115%N :: r => match args with a :: as' => option_map (app a) (py_format r as') | [] => None end
  | c :: r => option_map (cons c) (py_format r args)
  end.
Definition writes (l : list (string * list bytes * nat)) : option bytes :=
  fold_right (fun x acc => match x with (f, a, n) =>
                match py_format (str f) a, acc with Some t, Some u => Some (t ++ repeat nl n ++ u) | _, _ => None end end) (Some []) l.
(** add_macro (generate_macros.py:40-88): format, arguments, number of line ends; the lines without arguments contain no % sign *)
Definition add_macro (caps enum : bytes) : option bytes := writes [
    ("#if (SMCONSOLE_MIN_SEVERITY > SMCONSOLE_SEVERITY_%s)", [caps], 1);
    ("#define SM_%s(...)", [caps], 1);
    ("#define SM_%s_STREAM(args)", [caps], 1);
    ("#define SM_%s_NAMED(name, ...)", [caps], 1);
    ("#define SM_%s_STREAM_NAMED(name, args)", [caps], 1);
    ("#define SM_%s_COND(cond, ...)", [caps], 1);
    ("#define SM_%s_STREAM_COND(cond, args)", [caps], 1);
    ("#define SM_%s_COND_NAMED(cond, name, ...)", [caps], 1);
    ("#define SM_%s_STREAM_COND_NAMED(cond, name, args)", [caps], 1);
    ("#define SM_%s_ONCE(...)", [caps], 1);
    ("#define SM_%s_STREAM_ONCE(args)", [caps], 1);
    ("#define SM_%s_ONCE_NAMED(name, ...)", [caps], 1);
    ("#define SM_%s_STREAM_ONCE_NAMED(name, args)", [caps], 1);
    ("#define SM_%s_THROTTLE(rate, ...)", [caps], 1);
    ("#define SM_%s_STREAM_THROTTLE(rate, args)", [caps], 1);
    ("#define SM_%s_THROTTLE_NAMED(rate, name, ...)", [caps], 1);
    ("#define SM_%s_STREAM_THROTTLE_NAMED(rate, name, args)", [caps], 1);
    ("#else", [], 1);
    ("#define SM_%s(...) SM_LOG(::sm::logging::levels::%s, SMCONSOLE_DEFAULT_NAME, __VA_ARGS__)", [caps; enum], 1);
    ("#define SM_%s_STREAM(args) SM_LOG_STREAM(::sm::logging::levels::%s, SMCONSOLE_DEFAULT_NAME, args)", [caps; enum], 1);
    ("#define SM_%s_NAMED(name, ...) SM_LOG(::sm::logging::levels::%s, std::string(SMCONSOLE_NAME_PREFIX) + ""."" + name, __VA_ARGS__)", [caps; enum], 1);
    ("#define SM_%s_STREAM_NAMED(name, args) SM_LOG_STREAM(::sm::logging::levels::%s, std::string(SMCONSOLE_NAME_PREFIX) + ""."" + name, args)", [caps; enum], 1);
    ("#define SM_%s_COND(cond, ...) SM_LOG_COND(cond, ::sm::logging::levels::%s, SMCONSOLE_DEFAULT_NAME, __VA_ARGS__)", [caps; enum], 1);
    ("#define SM_%s_STREAM_COND(cond, args) SM_LOG_STREAM_COND(cond, ::sm::logging::levels::%s, SMCONSOLE_DEFAULT_NAME, args)", [caps; enum], 1);
    ("#define SM_%s_COND_NAMED(cond, name, ...) SM_LOG_COND(cond, ::sm::logging::levels::%s, std::string(SMCONSOLE_NAME_PREFIX) + ""."" + name, __VA_ARGS__)", [caps; enum], 1);
    ("#define SM_%s_STREAM_COND_NAMED(cond, name, args) SM_LOG_STREAM_COND(cond, ::sm::logging::levels::%s, std::string(SMCONSOLE_NAME_PREFIX) + ""."" + name, args)", [caps; enum], 1);
    ("#define SM_%s_ONCE(...) SM_LOG_ONCE(::sm::logging::levels::%s, SMCONSOLE_DEFAULT_NAME, __VA_ARGS__)", [caps; enum], 1);
    ("#define SM_%s_STREAM_ONCE(args) SM_LOG_STREAM_ONCE(::sm::logging::levels::%s, SMCONSOLE_DEFAULT_NAME, args)", [caps; enum], 1);
    ("#define SM_%s_ONCE_NAMED(name, ...) SM_LOG_ONCE(::sm::logging::levels::%s, std::string(SMCONSOLE_NAME_PREFIX) + ""."" + name, __VA_ARGS__)", [caps; enum], 1);
    ("#define SM_%s_STREAM_ONCE_NAMED(name, args) SM_LOG_STREAM_ONCE(::sm::logging::levels::%s, std::string(SMCONSOLE_NAME_PREFIX) + ""."" + name, args)", [caps; enum], 1);
    ("#define SM_%s_THROTTLE(rate, ...) SM_LOG_THROTTLE(rate, ::sm::logging::levels::%s, SMCONSOLE_DEFAULT_NAME, __VA_ARGS__)", [caps; enum], 1);
    ("#define SM_%s_STREAM_THROTTLE(rate, args) SM_LOG_STREAM_THROTTLE(rate, ::sm::logging::levels::%s, SMCONSOLE_DEFAULT_NAME, args)", [caps; enum], 1);
    ("#define SM_%s_THROTTLE_NAMED(rate, name, ...) SM_LOG_THROTTLE(rate, ::sm::logging::levels::%s, std::string(SMCONSOLE_NAME_PREFIX) + ""."" + name, __VA_ARGS__)", [caps; enum], 1);
    ("#define SM_%s_STREAM_THROTTLE_NAMED(rate, name, args) SM_LOG_STREAM_THROTTLE(rate, ::sm::logging::levels::%s, std::string(SMCONSOLE_NAME_PREFIX) + ""."" + name, args)", [caps; enum], 1);
    ("#endif", [], 2)
  ]%string.
(** generate_macros.py:90-121: what is written before the calls *)
Definition preamble : list string := [
  "// !!!!!!!!!!!!!!!!!!!!!!! This is a generated file, do not edit manually";
  "";
  "/*";
  " * Copyright (c) 2008, Willow Garage, Inc.";
  " * All rights reserved.";
  " *";
  " * Redistribution and use in source and binary forms, with or without";
  " * modification, are permitted provided that the following conditions are met:";
  " *";
  " *     * Redistributions of source code must retain the above copyright";
  " *       notice, this list of conditions and the following disclaimer.";
  " *     * Redistributions in binary form must reproduce the above copyright";
  " *       notice, this list of conditions and the following disclaimer in the";
  " *       documentation and/or other materials provided with the distribution.";
  " *     * Neither the name of Willow Garage, Inc. nor the names of its";
  " *       contributors may be used to endorse or promote products derived from";
  " *       this software without specific prior written permission.";
  " *";
  " * THIS SOFTWARE IS PROVIDED BY THE COPYRIGHT HOLDERS AND CONTRIBUTORS ""AS IS""";
  " * AND ANY EXPRESS OR IMPLIED WARRANTIES, INCLUDING, BUT NOT LIMITED TO, THE";
  " * IMPLIED WARRANTIES OF MERCHANTABILITY AND FITNESS FOR A PARTICULAR PURPOSE";
  " * ARE DISCLAIMED. IN NO EVENT SHALL THE COPYRIGHT OWNER OR CONTRIBUTORS BE";
  " * LIABLE FOR ANY DIRECT, INDIRECT, INCIDENTAL, SPECIAL, EXEMPLARY, OR";
  " * CONSEQUENTIAL DAMAGES (INCLUDING, BUT NOT LIMITED TO, PROCUREMENT OF";
  " * SUBSTITUTE GOODS OR SERVICES; LOSS OF USE, DATA, OR PROFITS; OR BUSINESS";
  " * INTERRUPTION) HOWEVER CAUSED AND ON ANY THEORY OF LIABILITY, WHETHER IN";
  " * CONTRACT, STRICT LIABILITY, OR TORT (INCLUDING NEGLIGENCE OR OTHERWISE)";
  " * ARISING IN ANY WAY OUT OF THE USE OF THIS SOFTWARE, EVEN IF ADVISED OF THE";
  " * POSSIBILITY OF SUCH DAMAGE.";
  " */";
  ""
  ]%string.
(** generate_macros.py:123-127 *)
Definition generated_levels : list (string * string) := [("DEBUG", "Debug"); ("INFO", "Info"); ("WARN", "Warn"); ("ERROR", "Error"); ("FATAL", "Fatal")]%string.
Definition generated : option bytes :=
  fold_left (fun acc x => match acc, add_macro (str (fst x)) (str (snd x)) with Some t, Some b => Some (t ++ b) | _, _ => None end)
    generated_levels (Some (join_lines preamble)).

(** ** Levels.hpp (5-16): the severities; (26-40): the enumerators, in order *)
Definition severity_lines : list string := [
  "#define SMCONSOLE_SEVERITY_ALL 0";
  "#define SMCONSOLE_SEVERITY_FINEST 1";
  "#define SMCONSOLE_SEVERITY_VERBOSE 2";
  "#define SMCONSOLE_SEVERITY_FINER 3";
  "#define SMCONSOLE_SEVERITY_TRACE 4";
  "#define SMCONSOLE_SEVERITY_FINE 5";
  "#define SMCONSOLE_SEVERITY_DEBUG 6";
  "#define SMCONSOLE_SEVERITY_INFO 7";
  "#define SMCONSOLE_SEVERITY_WARN 8";
  "#define SMCONSOLE_SEVERITY_ERROR 9";
  "#define SMCONSOLE_SEVERITY_FATAL 10";
  "#define SMCONSOLE_SEVERITY_NONE 11"
  ]%string.
Definition enumerators : list string := ["All"; "Finest"; "Verbose"; "Finer"; "Trace"; "Fine"; "Debug"; "Info"; "Warn"; "Error"; "Fatal"; "Count"]%string.
(** #define name number; the latest definition *)
Fixpoint number (l : bytes) (acc : Z) : Z := match l with [] => acc | c :: r => number r (10 * acc + Z.of_N (c - 48)) end.
Fixpoint severity_of (l : list string) (n : bytes) : option Z :=
  match l with
  | [] => None
  | s :: r => match severity_of r n with
              | Some z => Some z
              | None => match map txt (tokens (str s)) with
                        | [h; d; k; v] => if bytes_eqb h (str "#") && bytes_eqb d (str "define") && bytes_eqb k n && forallb is_digit v
                                          then Some (number v 0) else None
                        | _ => None
                        end
              end
  end.
