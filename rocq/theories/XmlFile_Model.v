(** Model of BoostPropertyTreeImplementation::saveXml, loadXml, loadXmlFromString and getXmlReadOptions
    (BoostPropertyTreeImplementation.cpp:112-138, 320-325): boost::property_tree::write_xml and read_xml on whole files, with
    the options the code passes. Boost is not part of the repository: the writer follows
    boost/property_tree/detail/xml_parser_write.hpp and xml_parser_utils.hpp (encode_char_entities), the reader
    detail/xml_parser_read_rapidxml.hpp and detail/rapidxml.hpp (Boost 1.56 and later). rapidxml parses a buffer in place;
    the characters it overwrites lie behind the reading position, so that the model reads a byte list. Not modelled:
    failures of the file system, line numbers in error messages. *)
From Verif Require Export Bytes.
From Verif Require Import Strings_Model PTree_Model.
Open Scope nat_scope.

Definition xLT : byte := 60%N. Definition xGT : byte := 62%N. Definition xAMP : byte := 38%N. Definition xSL : byte := 47%N.
Definition XMLATTR : bytes := str "<xmlattr>".
Definition XMLCOMMENT : bytes := str "<xmlcomment>".
Definition XMLTEXT : bytes := str "<xmltext>".

(** ** The writer; [h]: isHumanReadableInputOutput() (126-137: one tab per level, otherwise no indentation) *)
Definition enc_char (c : byte) : bytes :=
  match c with
  | 60 => str "&lt;" | 62 => str "&gt;" | 38 => str "&amp;" | 34 => str "&quot;" | 39 => str "&apos;" | _ => [c]
  end%N.
(** encode_char_entities: a string of blanks only has its first blank encoded *)
Definition encode (s : bytes) : bytes :=
  match s with
  | [] => []
  | _ :: r => if forallb (N.eqb 32%N) s then str "&#32;" ++ r else flat_map enc_char s
  end.
Section Writer.
  Variable h : bool.
  (** write_xml_indent *)
  Definition xindent (n : nat) : bytes := if h then repeat 9%N n else [].
  Definition xnl : bytes := if h then [10%N] else [].
  (** write_xml_text, write_xml_comment *)
  Definition write_text (n : nat) (separate_line : bool) (s : bytes) : bytes :=
    if separate_line then xindent n ++ encode s ++ [10%N] else encode s.
  Definition write_comment (n : nat) (s : bytes) : bytes := xindent n ++ str "<!--" ++ s ++ str "-->" ++ xnl.
  (** the attributes of write_xml_element *)
  Definition write_attrs (ks : list (bytes * ptree)) : bytes :=
    match find_kid ks XMLATTR with
    | Some a => flat_map (fun p => 32%N :: fst p ++ str "=""" ++ encode (pdata (snd p)) ++ str """") (pkids a)
    | None => []
    end.
  Definition has_elements (ks : list (bytes * ptree)) : bool :=
    existsb (fun p => negb (bytes_eqb (fst p) XMLATTR) && negb (bytes_eqb (fst p) XMLTEXT)) ks.
  Definition is_nil {A} (l : list A) : bool := match l with [] => true | _ => false end.
  Definition attrs_only (d : bytes) (ks : list (bytes * ptree)) : bool :=
    is_nil d && forallb (fun p => bytes_eqb (fst p) XMLATTR) ks.
  (** write_xml_element for indent >= 0 *)
  Fixpoint write_elem (n : nat) (key : bytes) (t : ptree) : bytes :=
    match t with
    | Node d ks =>
        let kids :=
          (fix kids (l : list (bytes * ptree)) : bytes :=
             match l with
             | [] => []
             | (k, c) :: r =>
                 (if bytes_eqb k XMLATTR then []
                  else if bytes_eqb k XMLCOMMENT then write_comment (S n) (pdata c)
                  else if bytes_eqb k XMLTEXT then write_text (S n) (has_elements ks && h) (pdata c)
                  else write_elem (S n) k c) ++ kids r
             end) ks in
        if is_nil d && is_nil ks then xindent n ++ xLT :: key ++ [xSL; xGT] ++ xnl
        else
          xindent n ++ xLT :: key ++ write_attrs ks ++
          (if attrs_only d ks then [xSL; xGT] ++ xnl else xGT :: (if has_elements ks then xnl else [])) ++
          (if is_nil d then [] else write_text (S n) (has_elements ks && h) d) ++
          kids ++
          (if attrs_only d ks then [] else (if has_elements ks then xindent n else []) ++ [xLT; xSL] ++ key ++ xGT :: xnl)
    end.
  Definition write_kid (n : nat) (sep : bool) (p : bytes * ptree) : bytes :=
    if bytes_eqb (fst p) XMLATTR then []
    else if bytes_eqb (fst p) XMLCOMMENT then write_comment n (pdata (snd p))
    else if bytes_eqb (fst p) XMLTEXT then write_text n sep (pdata (snd p))
    else write_elem n (fst p) (snd p).
  (** write_xml_internal: the declaration, then write_xml_element with indent -1 *)
  Definition xml_decl : bytes := str "<?xml version=""1.0"" encoding=""utf-8""?>" ++ [10%N].
  Definition write_xml (t : ptree) : bytes :=
    let sep := has_elements (pkids t) && h in
    xml_decl ++ (if is_nil (pdata t) then [] else write_text 0 sep (pdata t)) ++ flat_map (write_kid 0 sep) (pkids t).
End Writer.
Definition saveXml := write_xml.

(** ** The reader *)
(** rapidxml's lookup tables: white space, node names, attribute names *)
Definition xws (c : byte) : bool := (N.eqb c 32 || N.eqb c 10 || N.eqb c 13 || N.eqb c 9)%N.
Definition name_char (c : byte) : bool := negb (xws c || N.eqb c 47 || N.eqb c 62 || N.eqb c 63 || N.eqb c 0)%N.
Definition attr_char (c : byte) : bool :=
  negb (xws c || N.eqb c 47 || N.eqb c 60 || N.eqb c 62 || N.eqb c 61 || N.eqb c 63 || N.eqb c 33 || N.eqb c 0)%N.
Fixpoint xspan (p : byte -> bool) (s : bytes) : bytes * bytes :=
  match s with
  | c :: r => if p c then let '(a, b) := xspan p r in (c :: a, b) else ([], s)
  | [] => ([], [])
  end.
Definition xskip (s : bytes) : bytes := snd (xspan xws s).
(** the text up to the first occurrence of the mark, and what follows the mark *)
Fixpoint starts (m s : bytes) : bool :=
  match m, s with [] , _ => true | a :: m', c :: s' => N.eqb a c && starts m' s' | _ :: _, [] => false end.
Fixpoint upto (m s : bytes) : option (bytes * bytes) :=
  if starts m s then Some ([], skipn (length m) s)
  else match s with [] => None | c :: r => match upto m r with Some (a, b) => Some (c :: a, b) | None => None end end.

(** insert_coded_character *)
Definition coded (u : N) : option bytes :=
  (if u <? 128 then Some [u]
   else if u <? 2048 then Some [192 + u / 64; 128 + u mod 64]
   else if u <? 65536 then Some [224 + u / 4096; 128 + u / 64 mod 64; 128 + u mod 64]
   else if u <? 1114112 then Some [240 + u / 262144; 128 + u / 4096 mod 64; 128 + u / 64 mod 64; 128 + u mod 64]
   else None)%N.
(** lookup_digits *)
Definition xdigit (c : byte) : option N :=
  (if (48 <=? c) && (c <=? 57) then Some (c - 48) else if (65 <=? c) && (c <=? 70) then Some (c - 55)
   else if (97 <=? c) && (c <=? 102) then Some (c - 87) else None)%N.
(** the loop over the digits; unsigned long arithmetic *)
Fixpoint number (base acc : N) (s : bytes) : N * bytes :=
  match s with
  | c :: r => match xdigit c with Some v => number base ((acc * base + v) mod 2 ^ 64)%N r | None => (acc, s) end
  | [] => (acc, [])
  end.
Definition char_ref (base : N) (s : bytes) : option (bytes * bytes) :=
  let '(u, r) := number base 0 s in
  match coded u, r with Some b, c :: r' => if N.eqb c 59 then Some (b, r') else None | _, _ => None end.
(** skip_and_expand_character_refs: the expanded text before the first character with [stop], and the rest. [norm]: parse_normalize_whitespace *)
Fixpoint expand (norm : bool) (stop : byte -> bool) (fuel : nat) (s : bytes) : option (bytes * bytes) :=
  match fuel with
  | O => None
  | S f =>
      let cont (v : bytes) (r : bytes) := match expand norm stop f r with Some (a, b) => Some (v ++ a, b) | None => None end in
      match s with
      | [] => Some ([], [])
      | c :: r =>
          if stop c then Some ([], s)
          else if starts (str "&amp;") s then cont [38%N] (skipn 5 s)
          else if starts (str "&apos;") s then cont [39%N] (skipn 6 s)
          else if starts (str "&quot;") s then cont [34%N] (skipn 6 s)
          else if starts (str "&gt;") s then cont [62%N] (skipn 4 s)
          else if starts (str "&lt;") s then cont [60%N] (skipn 4 s)
          else if starts (str "&#x") s then match char_ref 16 (skipn 3 s) with Some (v, r') => cont v r' | None => None end
          else if starts (str "&#") s then match char_ref 10 (skipn 2 s) with Some (v, r') => cont v r' | None => None end
          else if norm && xws c then cont [32%N] (xskip r)
          else cont [c] r
      end
  end.
(** nodes of rapidxml that read_xml_node looks at *)
Inductive xnode := XElem (name : bytes) (attrs : list (bytes * bytes)) (kids : list xnode) | XData (v : bytes) | XComment (v : bytes).

(** parse_node_attributes (no normalisation of white space) *)
Fixpoint p_attrs (fuel : nat) (s : bytes) : option (list (bytes * bytes) * bytes) :=
  match fuel with
  | O => None
  | S f =>
      match xspan attr_char s with
      | ([], _) => Some ([], s)
      | (name, r) =>
          match xskip r with
          | e :: r1 =>
              if N.eqb e 61 then
                match xskip r1 with
                | q :: r2 =>
                    if N.eqb q 34 || N.eqb q 39 then
                      match expand false (N.eqb q) (S (length r2)) r2 with
                      | Some (v, _ :: r3) =>
                          match p_attrs f (xskip r3) with Some (l, r4) => Some ((name, v) :: l, r4) | None => None end
                      | _ => None
                      end
                    else None
                | [] => None
                end
              else None
          | [] => None
          end
      end
  end.
(** parse_doctype after the white space: up to the '>' outside of brackets; [depth]: open brackets *)
Fixpoint doctype (depth : nat) (s : bytes) : option bytes :=
  match s with
  | [] => None
  | c :: r =>
      match depth with
      | O => if N.eqb c 62 then Some r else doctype (if N.eqb c 91 then 1 else 0) r
      | S d => doctype (if N.eqb c 91 then S depth else if N.eqb c 93 then d else depth) r
      end
  end.
Section Reader.
  (** trim_whitespace and no_comments (getXmlReadOptions) *)
  Variables trim nocomments : bool.
  (** parse_and_append_data *)
  Definition p_data (s : bytes) : option (bytes * bytes) :=
    match expand trim (N.eqb xLT) (S (length s)) s with
    | Some (v, r) => Some (if trim then match rev v with 32%N :: v' => rev v' | _ => v end else v, r)
    | None => None
    end.
  (** parse_node after its opening '<' for everything but elements; [None]: an element *)
  Definition p_special (s : bytes) : option (option (option xnode * bytes)) :=
    match s with
    | 63%N :: r => Some (match upto (str "?>") r with Some (_, r') => Some (None, r') | None => None end)
    | 33%N :: r =>
        Some (if starts (str "--") r then
                match upto (str "-->") (skipn 2 r) with
                | Some (v, r') => Some (if nocomments then None else Some (XComment v), r')
                | None => None
                end
              else if starts (str "[CDATA[") r then
                match upto (str "]]>") (skipn 7 r) with Some (v, r') => Some (Some (XData v), r') | None => None end
              else if starts (str "DOCTYPE") r && match skipn 7 r with c :: _ => xws c | [] => false end then
                match doctype 0 (skipn 8 r) with Some r' => Some (None, r') | None => None end
              else match upto [xGT] r with Some (_, r') => Some (None, r') | None => None end)
    | _ => None
    end.
  (** parse_element (after '<') and parse_node_contents; closing tags are not compared with opening ones *)
  Fixpoint p_elem (fuel : nat) (s : bytes) : option (xnode * bytes) :=
    match fuel with
    | O => None
    | S f =>
        match xspan name_char s with
        | ([], _) => None
        | (name, r) =>
            match p_attrs (S (length r)) (xskip r) with
            | Some (a, c :: r1) =>
                if N.eqb c 62 then match p_contents f r1 with Some (ks, r2) => Some (XElem name a ks, r2) | None => None end
                else if N.eqb c 47 then match r1 with e :: r2 => if N.eqb e 62 then Some (XElem name a [], r2) else None | [] => None end
                else None
            | _ => None
            end
        end
    end
  with p_contents (fuel : nat) (s : bytes) : option (list xnode * bytes) :=
    match fuel with
    | O => None
    | S f =>
        let more (x : option xnode) (r : bytes) :=
          match p_contents f r with Some (ks, r') => Some (match x with Some y => y :: ks | None => ks end, r') | None => None end in
        let s1 := if trim then xskip s else s in
        match s1 with
        | [] => None
        | c :: r =>
            if N.eqb c xLT then
              if starts [xSL] r then
                match xskip (snd (xspan name_char (skipn 1 r))) with
                | e :: r1 => if N.eqb e 62 then Some ([], r1) else None
                | [] => None
                end
              else match p_special r with
                   | Some (Some (x, r1)) => more x r1
                   | Some None => None
                   | None => match p_elem f r with Some (x, r1) => more (Some x) r1 | None => None end
                   end
            else match p_data s1 with Some (v, r1) => more (Some (XData v)) r1 | None => None end
        end
    end.
  (** xml_document::parse *)
  Fixpoint p_doc (fuel : nat) (s : bytes) : option (list xnode) :=
    match fuel with
    | O => None
    | S f =>
        match xskip s with
        | [] => Some []
        | c :: r =>
            if N.eqb c xLT then
              match p_special r with
              | Some (Some (x, r1)) => match p_doc f r1 with Some l => Some (match x with Some y => y :: l | None => l end) | None => None end
              | Some None => None
              | None => match p_elem (S (length r)) r with
                        | Some (x, r1) => match p_doc f r1 with Some l => Some (x :: l) | None => None end
                        | None => None
                        end
              end
            else None
        end
    end.
End Reader.
(** read_xml_node: what a node adds to its parent *)
Fixpoint build (pt : ptree) (x : xnode) : ptree :=
  match x with
  | XElem name a ks =>
      add_kid pt name (fold_left build ks
        (Node [] (match a with [] => [] | _ => [(XMLATTR, Node [] (map (fun p => (fst p, Node (snd p) [])) a))] end)))
  | XData v => Node (pdata pt ++ v) (pkids pt)
  | XComment v => add_kid pt XMLCOMMENT (Node v [])
  end.
(** the buffer is a C string: it ends at the first NUL *)
Definition cut_nul (s : bytes) : bytes := fst (xspan (fun c => negb (N.eqb c 0)) s).
Definition skip_bom (s : bytes) : bytes := if starts [239; 187; 191]%N s then skipn 3 s else s.
(** read_xml_internal *)
Definition read_xml (trim nocomments : bool) (file : bytes) : option ptree :=
  let s := skip_bom (cut_nul file) in
  match p_doc trim nocomments (S (length s)) s with
  | Some l => Some (fold_left build l pempty)
  | None => None
  end.
(** loadXml, loadXmlFromString: the tree afterwards; the static flags humanReadableInputOutput and ignoreComments *)
Definition loadXml (h ignoreComments : bool) (t : ptree) (file : bytes) : ptree * res unit :=
  match read_xml h ignoreComments file with Some t' => (t', Ok tt) | None => (t, ParseError) end.
