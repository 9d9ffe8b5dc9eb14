(** Model of BoostPropertyTreeImplementation::saveJson and loadJson (BoostPropertyTreeImplementation.cpp:103-109):
    boost::property_tree::write_json (pretty) and read_json on whole files. Boost is not part of the repository: the
    functions follow boost/property_tree/json_parser/detail/write.hpp, parser.hpp, narrow_encoding.hpp and
    standard_callbacks.hpp (Boost 1.59 and later). Not modelled: failures of the file system. *)
From Verif Require Export Bytes.
From Verif Require Import Strings_Model PTree_Model.
Open Scope nat_scope.

Definition hexdigits : bytes := str "0123456789ABCDEF".
(** create_escapes, one character of an 8-bit encoding *)
Definition jesc (c : byte) : bytes :=
  if (N.eqb c 32 || N.eqb c 33 || (35 <=? c) && (c <=? 46) || (48 <=? c) && (c <=? 91) || (93 <=? c) && (c <=? 255))%N then [c]
  else match c with
       | 8 => [92; 98] | 12 => [92; 102] | 10 => [92; 110] | 13 => [92; 114] | 9 => [92; 116] | 47 => [92; 47] | 34 => [92; 34] | 92 => [92; 92]
       | _ => [92; 117; nth (N.to_nat (c / 4096)) hexdigits 0; nth (N.to_nat (c / 256 mod 16)) hexdigits 0;
               nth (N.to_nat (c / 16 mod 16)) hexdigits 0; nth (N.to_nat (c mod 16)) hexdigits 0]
       end%N.
Definition jescape (s : bytes) : bytes := flat_map jesc s.
Definition jquote (s : bytes) : bytes := QUOTE :: jescape s ++ [QUOTE].
Definition blanks (n : nat) : bytes := repeat 32%N (4 * n).
Definition is_nil {A} (l : list A) : bool := match l with [] => true | _ => false end.
(** pt.count("") == pt.size() *)
Definition all_empty_keys (ks : list (bytes * ptree)) : bool := forallb (fun p => is_nil (fst p)) ks.
(** write_json_helper with pretty; [obj]: the node is written as an object whatever its children (indent 0) *)
Fixpoint jwrite (obj : bool) (indent : nat) (t : ptree) : bytes :=
  match t with
  | Node d ks =>
      if negb obj && is_nil ks then jquote d
      else
        let array := negb obj && all_empty_keys ks in
        (if array then [91%N] else [LBRACE]) ++ [NL] ++
        (fix kids (l : list (bytes * ptree)) : bytes :=
           match l with
           | [] => []
           | (k, c) :: r =>
               blanks (S indent) ++ (if array then [] else jquote k ++ [58; 32]%N) ++ jwrite false (S indent) c ++
               (if is_nil r then [] else [COMMA]) ++ [NL] ++ kids r
           end) ks ++
        blanks indent ++ (if array then [93%N] else [RBRACE])
  end.
(** verify_json at depth > 0 *)
Fixpoint verify (t : ptree) : bool :=
  match t with Node d ks => (is_nil d || is_nil ks) && forallb (fun p => verify (snd p)) ks end.
(** write_json: content of the file afterwards (it is opened before the tree is verified), and whether it returned *)
Definition saveJson (t : ptree) : bytes * bool :=
  if is_nil (pdata t) && verify t then (jwrite true 0 t ++ [NL], true) else ([], false).

(** ** The reader *)
Definition jspace (c : byte) : bool := (N.eqb c 32 || N.eqb c 9 || N.eqb c 10 || N.eqb c 13)%N.
Fixpoint jskip (s : bytes) : bytes := match s with c :: r => if jspace c then jskip r else s | [] => [] end.
(** parse_hex_quad *)
Definition hexv (c : byte) : option N :=
  (if (48 <=? c) && (c <=? 57) then Some (c - 48) else if (65 <=? c) && (c <=? 70) then Some (c - 55)
   else if (97 <=? c) && (c <=? 102) then Some (c - 87) else None)%N.
Definition hexquad (a b c d : byte) : option N :=
  match hexv a, hexv b, hexv c, hexv d with
  | Some a, Some b, Some c, Some d => Some (((a * 16 + b) * 16 + c) * 16 + d)%N
  | _, _, _, _ => None
  end.
(** utf8_utf8_encoding::feed_codepoint *)
Definition utf8 (u : N) : bytes :=
  (if u <=? 127 then [u]
   else if u <=? 2047 then [192 + u / 64; 128 + u mod 64]
   else if u <=? 65535 then [224 + u / 4096; 128 + u / 64 mod 64; 128 + u mod 64]
   else [240 + u / 262144; 128 + u / 4096 mod 64; 128 + u / 64 mod 64; 128 + u mod 64])%N.
(** transcode_codepoint: the number of trailing bytes announced by a lead byte *)
Definition trailing (c : byte) : option nat :=
  if (c <=? 127)%N then Some 0 else if (c <=? 191)%N then None else if (c <=? 223)%N then Some 1 else if (c <=? 239)%N then Some 2
  else if (c <=? 247)%N then Some 3 else None.
Definition is_trail (c : byte) : bool := ((128 <=? c) && (c <=? 191))%N.
(** parse_escape without \u *)
Definition junesc (c : byte) : option byte :=
  match c with 34 => Some 34 | 92 => Some 92 | 47 => Some 47 | 98 => Some 8 | 102 => Some 12 | 110 => Some 10 | 114 => Some 13 | 116 => Some 9 | _ => None end%N.
Definition consm (x : bytes) (o : option (bytes * bytes)) : option (bytes * bytes) :=
  match o with Some (w, r) => Some (x ++ w, r) | None => None end.
(** parse_string after the opening quote; [need]: trailing bytes still to come. Text and rest, or a parse error. *)
Fixpoint p_chars (need : nat) (s : bytes) : option (bytes * bytes) :=
  match s with
  | [] => None
  | c :: r =>
      match need with
      | S k => if is_trail c then consm [c] (p_chars k r) else None
      | O =>
          if N.eqb c QUOTE then Some ([], r)
          else if N.eqb c 92 then
            match r with
            | [] => None
            | e :: r1 =>
                if N.eqb e 117 then
                  match r1 with
                  | a :: b :: c' :: d :: r2 =>
                      match hexquad a b c' d with
                      | None => None
                      | Some u =>
                          if (56320 <=? u) && (u <=? 57343) then None
                          else if (55296 <=? u) && (u <=? 56319) then
                            match r2 with
                            | s1 :: s2 :: a' :: b' :: c2 :: d' :: r3 =>
                                if N.eqb s1 92 && N.eqb s2 117 then
                                  match hexquad a' b' c2 d' with
                                  | Some lo => if (56320 <=? lo) && (lo <=? 57343)
                                               then consm (utf8 (65536 + (u - 55296) * 1024 + (lo - 56320))) (p_chars 0 r3)
                                               else None
                                  | None => None
                                  end
                                else None
                            | _ => None
                            end
                          else consm (utf8 u) (p_chars 0 r2)
                      end%N
                  | _ => None
                  end
                else match junesc e with Some x => consm [x] (p_chars 0 r1) | None => None end
            end
          else match trailing c with Some k => consm [c] (p_chars k r) | None => None end
      end
  end.
(** parse_number: the text and the rest; [None]: no number or a malformed one *)
Fixpoint digits_of (s : bytes) : bytes * bytes :=
  match s with c :: r => if is_digit c then let '(d, r') := digits_of r in (c :: d, r') else ([], s) | [] => ([], []) end.
Definition p_int (s : bytes) : option (bytes * bytes) :=
  match s with
  | c :: r => if N.eqb c 48 then Some ([c], r) else if is_digit c then Some (digits_of s) else None
  | [] => None
  end.
Definition p_frac (s : bytes) : option (bytes * bytes) :=
  match s with
  | c :: r => if N.eqb c 46 then match digits_of r with ([], _) => None | (d, r') => Some (c :: d, r') end else Some ([], s)
  | [] => Some ([], [])
  end.
Definition p_exp (s : bytes) : option (bytes * bytes) :=
  match s with
  | c :: r => if N.eqb c 101 || N.eqb c 69 then
                let '(sg, r1) := match r with x :: r1 => if N.eqb x 43 || N.eqb x 45 then ([x], r1) else ([], r) | [] => ([], []) end in
                match digits_of r1 with ([], _) => None | (d, r') => Some (c :: sg ++ d, r') end
              else Some ([], s)
  | [] => Some ([], [])
  end.
Definition p_number (s : bytes) : option (bytes * bytes) :=
  let '(m, s1) := match s with c :: r => if N.eqb c 45 then ([c], r) else ([], s) | [] => ([], []) end in
  match p_int s1 with
  | Some (i, s2) => match p_frac s2 with
                    | Some (f, s3) => match p_exp s3 with Some (e, s4) => Some (m ++ i ++ f ++ e, s4) | None => None end
                    | None => None
                    end
  | None => None
  end.
Definition p_atom (s : bytes) : option (ptree * bytes) :=
  let lit (w : bytes) (k : option (ptree * bytes)) := match drop_prefix w s with Some r => Some (Node w [], r) | None => k end in
  lit (str "true") (lit (str "false") (lit (str "null")
    (match p_number s with Some (d, r) => Some (Node d [], r) | None => None end))).
(** parse_value, parse_object, parse_array. Two calls in a row consume a character, so twice the length of the text is enough fuel. *)
Fixpoint p_value (fuel : nat) (s : bytes) {struct fuel} : option (ptree * bytes) :=
  match fuel with
  | O => None
  | S f =>
      match jskip s with
      | [] => None
      | c :: r =>
          if N.eqb c LBRACE then
            match jskip r with
            | x :: r' => if N.eqb x RBRACE then Some (pempty, r')
                         else match p_members f r with Some (ks, r') => Some (Node [] ks, r') | None => None end
            | [] => None
            end
          else if N.eqb c 91 then
            match jskip r with
            | x :: r' => if N.eqb x 93 then Some (pempty, r')
                         else match p_elems f r with Some (ks, r') => Some (Node [] ks, r') | None => None end
            | [] => None
            end
          else if N.eqb c QUOTE then match p_chars 0 r with Some (v, r') => Some (Node v [], r') | None => None end
          else p_atom (c :: r)
      end
  end
with p_members (fuel : nat) (s : bytes) {struct fuel} : option (list (bytes * ptree) * bytes) :=
  match fuel with
  | O => None
  | S f =>
      match jskip s with
      | q :: r =>
          if N.eqb q QUOTE then
            match p_chars 0 r with
            | Some (k, r1) =>
                match jskip r1 with
                | x :: r2 =>
                    if N.eqb x 58 then
                      match p_value f r2 with
                      | Some (v, r3) =>
                          match jskip r3 with
                          | y :: r4 => if N.eqb y COMMA then match p_members f r4 with Some (ks, r5) => Some ((k, v) :: ks, r5) | None => None end
                                       else if N.eqb y RBRACE then Some ([(k, v)], r4) else None
                          | [] => None
                          end
                      | None => None
                      end
                    else None
                | [] => None
                end
            | None => None
            end
          else None
      | [] => None
      end
  end
with p_elems (fuel : nat) (s : bytes) {struct fuel} : option (list (bytes * ptree) * bytes) :=
  match fuel with
  | O => None
  | S f =>
      match p_value f s with
      | Some (v, r3) =>
          match jskip r3 with
          | y :: r4 => if N.eqb y COMMA then match p_elems f r4 with Some (ks, r5) => Some (([], v) :: ks, r5) | None => None end
                       else if N.eqb y 93 then Some ([([], v)], r4) else None
          | [] => None
          end
      | None => None
      end
  end.
(** skip_introduction: a UTF-8 byte order mark *)
Definition skip_bom (s : bytes) : bytes := match drop_prefix [239; 187; 191]%N s with Some r => r | None => s end.
(** read_json: the value, then nothing but white space; the tree is swapped in at the end *)
Definition loadJson (t : ptree) (file : bytes) : ptree * res unit :=
  match p_value (2 * S (length file)) (skip_bom file) with
  | Some (t', r) => match jskip r with [] => (t', Ok tt) | _ => (t, ParseError) end
  | None => (t, ParseError)
  end.
