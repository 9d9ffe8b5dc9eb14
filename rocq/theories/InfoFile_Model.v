(** Model of BoostPropertyTreeImplementation::saveInfo, asInfoString and loadInfo (BoostPropertyTreeImplementation.cpp:
    151-165): boost::property_tree::write_info and read_info on whole files. Boost is not part of the repository: the two
    functions follow boost/property_tree/detail/info_parser_write.hpp and info_parser_read.hpp (default settings, C
    locale), statement by statement. Unlike [read_info] of PTree_Model.v, quoted strings, continuation lines and
    directives are modelled; a successful #include is an outcome of its own and not followed. Not modelled: failures of
    the file system. *)
From Verif Require Export Bytes.
From Verif Require Import Strings_Model PTree_Model.
Open Scope nat_scope.

(** ** The writer *)
(** create_escapes, one character *)
Definition esc_char (c : byte) : bytes :=
  match c with
  | 0 => [92; 48] | 7 => [92; 97] | 8 => [92; 98] | 12 => [92; 102] | 10 => [92; 110] | 13 => [92; 114] | 11 => [92; 118]
  | 34 => [92; 34] | 92 => [92; 92] | _ => [c]
  end%N.
Definition create_escapes (s : bytes) : bytes := flat_map esc_char s.
(** is_simple_key, is_simple_data: not empty and without one of these characters: blank, tab, braces, semicolon, newline, quote *)
Definition special_chars : bytes := [32; 9; 123; 125; 59; 10; 34]%N.
Definition is_simple (s : bytes) : bool :=
  match s with [] => false | _ => negb (existsb (fun c => existsb (N.eqb c) special_chars) s) end.
Definition write_word (s : bytes) : bytes :=
  let e := create_escapes s in if is_simple e then e else QUOTE :: e ++ [QUOTE].
(** write_info_indent: indent_count 4, indent_char ' ' *)
Definition write_indent (indent : nat) : bytes := repeat 32%N (indent * 4).
(** write_info_helper for indent >= 0 *)
Fixpoint write_node (indent : nat) (t : ptree) : bytes :=
  match t with
  | Node d ks =>
      (match d, ks with
       | _ :: _, _ => 32%N :: write_word d ++ [NL]
       | [], [] => [32%N; QUOTE; QUOTE; NL]
       | [], _ :: _ => [NL]
       end) ++
      (match ks with
       | [] => []
       | _ => write_indent indent ++ [LBRACE; NL] ++
              (fix kids (l : list (bytes * ptree)) : bytes :=
                 match l with
                 | [] => []
                 | (k, c) :: r => (write_indent (S indent) ++ write_word k ++ write_node (S indent) c) ++ kids r
                 end) ks ++
              write_indent indent ++ [RBRACE; NL]
       end)
  end.
(** write_info: write_info_helper with indent -1 (no data, no braces, children at indent 0) *)
Definition write_info (t : ptree) : bytes :=
  flat_map (fun p => write_indent 0 ++ write_word (fst p) ++ write_node 0 (snd p)) (pkids t).
Definition asInfoString := write_info.
(** saveInfo: the content of the file afterwards *)
Definition saveInfo := write_info.

(** ** The reader *)
(** std::getline until the stream is no longer good: the pieces between newlines *)
Fixpoint lines (s : bytes) : list bytes :=
  match s with
  | [] => [[]]
  | c :: r => if N.eqb c NL then [] :: lines r else match lines r with h :: t => (c :: h) :: t | [] => [[c]] end
  end.
(** read_word: up to white space or ';' (the caller has skipped white space); the rest *)
Fixpoint span_word (s : bytes) : bytes * bytes :=
  match s with
  | [] => ([], [])
  | c :: r => if is_space c || N.eqb c 59 then ([], s) else let '(w, r') := span_word r in (c :: w, r')
  end.
Definition read_word (s : bytes) : option (bytes * bytes) :=
  let '(w, r) := span_word s in match expand_escapes w with Some v => Some (v, r) | None => None end.
(** the loop of read_string: up to the next quote that is not escaped *)
Fixpoint span_quoted (escaped : bool) (s : bytes) : option (bytes * bytes) :=
  match s with
  | [] => None
  | c :: r => if negb escaped && N.eqb c QUOTE then Some ([], r)
              else match span_quoted (negb escaped && N.eqb c 92) r with Some (w, r') => Some (c :: w, r') | None => None end
  end.
(** read_string; [more]: need_more_lines is not null. Value, whether the value continues on the next line, rest. *)
Definition read_string (more : bool) (s : bytes) : option (bytes * bool * bytes) :=
  match s with
  | c :: r =>
      if N.eqb c QUOTE then
        match span_quoted false r with
        | None => None
        | Some (raw, r1) =>
            match expand_escapes raw with
            | None => None
            | Some v =>
                match skip_ws r1 with
                | b :: r3 =>
                    if N.eqb b 92 then
                      if more then
                        match skip_ws r3 with
                        | [] => Some (v, true, [])
                        | e :: r4 => if N.eqb e 59 then Some (v, true, e :: r4) else None
                        end
                      else None
                    else Some (v, false, b :: r3)
                | [] => Some (v, false, [])
                end
            end
        end
      else None
  | [] => None
  end.
(** read_key, read_data (the caller has skipped white space) *)
Definition read_key (s : bytes) : option (bytes * bytes) :=
  match s with
  | c :: _ => if N.eqb c QUOTE then match read_string false s with Some (v, _, r) => Some (v, r) | None => None end else read_word s
  | [] => read_word s
  end.
Definition read_data (s : bytes) : option (bytes * bool * bytes) :=
  match s with
  | c :: _ => if N.eqb c QUOTE then read_string true s else match read_word s with Some (v, r) => Some (v, false, r) | None => None end
  | [] => match read_word s with Some (v, r) => Some (v, false, r) | None => None end
  end.

(** Parser states; [top], [stk]: the nodes under construction with their keys (their last child is open when it is pushed);
    [has_last]: last is not NULL, i.e. the last child of the top node. *)
Inductive mode := MKey | MData | MCont.
Record pstate := mkP { top : frame; stk : list frame; has_last : bool; md : mode }.
Inductive pres := Good (s : pstate) | Err | Incl.

Definition push_last (s : pstate) : pres :=
  match split_last (pkids (snd (top s))) with
  | Some (ks, x) => Good (mkP x ((fst (top s), Node (pdata (snd (top s))) ks) :: stk s) false MKey)
  | None => Err
  end.
Definition pop_node (s : pstate) : pres :=
  match stk s with
  | [] => Err
  | (k, t) :: r => Good (mkP (k, add_kid t (fst (top s)) (snd (top s))) r false MKey)
  end.
Definition new_kid (s : pstate) (k : bytes) : pstate :=
  mkP (fst (top s), add_kid (snd (top s)) k pempty) (stk s) true MData.
(** last->data() = f (last->data()) *)
Definition upd_last (s : pstate) (f : bytes -> bytes) (m : mode) : pres :=
  match split_last (pkids (snd (top s))) with
  | Some (ks, (k, c)) => Good (mkP (fst (top s), Node (pdata (snd (top s))) (ks ++ [(k, Node (f (pdata c)) (pkids c))])) (stk s) (has_last s) m)
  | None => Err
  end.
(** the inner loop over one line *)
Fixpoint read_rest (fuel : nat) (text : bytes) (s : pstate) : pres :=
  match fuel with
  | O => Err
  | S f =>
      match skip_ws text with
      | [] => Good (mkP (top s) (stk s) (has_last s) (match md s with MData => MKey | m => m end))
      | c :: r =>
          if N.eqb c 59 then Good (mkP (top s) (stk s) (has_last s) (match md s with MData => MKey | m => m end))
          else match md s with
          | MKey =>
              if N.eqb c LBRACE then if has_last s then match push_last s with Good s' => read_rest f r s' | e => e end else Err
              else if N.eqb c RBRACE then match pop_node s with Good s' => read_rest f r s' | e => e end
              else match read_key (c :: r) with Some (k, r') => read_rest f r' (new_kid s k) | None => Err end
          | MData =>
              if N.eqb c LBRACE then match push_last s with Good s' => read_rest f r s' | e => e end
              else if N.eqb c RBRACE then match pop_node s with Good s' => read_rest f r s' | e => e end
              else match read_data (c :: r) with
                   | Some (v, more, r') =>
                       match upd_last s (fun _ => v) (if more then MCont else MKey) with Good s' => read_rest f r' s' | e => e end
                   | None => Err
                   end
          | MCont =>
              if N.eqb c QUOTE then
                match read_string true (c :: r) with
                | Some (v, more, r') =>
                    match upd_last s (fun d => d ++ v) (if more then MCont else MKey) with Good s' => read_rest f r' s' | e => e end
                | None => Err
                end
              else Err
          end
      end
  end.
(** one line, read as the C string line.c_str(): a directive, or keys and data. Every turn of the inner loop consumes a character. *)
Definition read_line (line : bytes) (s : pstate) : pres :=
  let text := c_str line in
  match skip_ws text with
  | c :: r =>
      if N.eqb c 35 then
        match read_word (skip_ws r) with
        | Some (w, r') => if bytes_eqb w (str "include")
                          then match read_string false (skip_ws r') with Some _ => Incl | None => Err end
                          else Err
        | None => Err
        end
      else read_rest (S (length text)) text s
  | [] => read_rest (S (length text)) text s
  end.
Fixpoint read_lines (l : list bytes) (s : pstate) : pres :=
  match l with [] => Good s | x :: r => match read_line x s with Good s' => read_lines r s' | e => e end end.
Inductive info_result := InfoTree (t : ptree) | InfoError | InfoInclude.
Definition read_info_file (text : bytes) : info_result :=
  match read_lines (lines text) (mkP ([], pempty) [] false MKey) with
  | Good s => match stk s with [] => InfoTree (snd (top s)) | _ => InfoError end
  | Err => InfoError
  | Incl => InfoInclude
  end.
(** loadInfo (151-154): the tree is swapped in only after the whole file has been read. [None]: depends on other files. *)
Definition loadInfo (t : ptree) (file : bytes) : option (ptree * res unit) :=
  match read_info_file file with
  | InfoTree t' => Some (t', Ok tt) | InfoError => Some (t, ParseError) | InfoInclude => None
  end.
