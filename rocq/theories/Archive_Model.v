(** Model of sm_matrix_archive/src/MatrixArchive.cpp and include/sm/MatrixArchive.hpp, and of the MATLAB functions
    saveMatrixArchive.m / loadMatrixArchive.m.  Little-endian machine (isSystemLittleEndian() is true; the other branch
    throws "Not Implemented").  A double is its 8 bytes; a matrix is its shape and its column-major bytes.
    Not modelled: failures of the file system, allocation failures, message texts. *)
From Verif Require Export Bytes.
From Verif Require Import HashId_Model Strings_Model.
Open Scope nat_scope.

(** A file stream reads uninitialised variables when it fails; what they contain is up to [junk]: variable, offset. *)
Inductive var := VStart | VName | VRows | VCols | VData | VSize | VStr | VEnd.
Definition junk := var -> nat -> byte.

Record matrix := mkM { m_rows : N; m_cols : N; m_data : bytes }.
(** std::map<std::string, V>: a list sorted by std::string::operator<. *)
Fixpoint bytes_ltb (a b : bytes) : bool :=
  match a, b with
  | _, [] => false
  | [], _ :: _ => true
  | x :: a', y :: b' => if (x <? y)%N then true else if (y <? x)%N then false else bytes_ltb a' b'
  end.
Section Map.
  Context {V : Type}.
  Fixpoint mfind (m : list (bytes * V)) (k : bytes) : option V :=
    match m with [] => None | (k', v) :: m' => if bytes_eqb k' k then Some v else mfind m' k end.
  Fixpoint mset (m : list (bytes * V)) (k : bytes) (v : V) : list (bytes * V) :=
    match m with
    | [] => [(k, v)]
    | (k', v') :: m' => if bytes_ltb k k' then (k, v) :: m
                        else if bytes_eqb k' k then (k, v) :: m'
                        else (k', v') :: mset m' k v
    end.
  Definition merase (m : list (bytes * V)) (k : bytes) : list (bytes * V) :=
    filter (fun p => negb (bytes_eqb (fst p) k)) m.
End Map.

(** Data members m_values and m_strings (MatrixArchive.hpp:116-117). *)
Record archive := mkA { values : list (bytes * matrix); strings : list (bytes * bytes) }.
Definition empty : archive := mkA [] [].

(** validateName (145-158): [true] = accepted. isalpha/isalnum in the C locale; for bytes >= 128 (negative char) they
    are false here. *)
Definition s_fixedNameSize := 32.
Definition validateName (name : bytes) : bool :=
  if (s_fixedNameSize <? length name) || (length name =? 0) then false
  else match name with
       | [] => false
       | c :: r => is_alpha c && forallb (fun c => is_alnum c || N.eqb c 95) r
       end.

(** Outcome of a call: the archive afterwards, and the value or the exception. *)
Inductive status (V : Type) := Ok (v : V) | Threw.
Arguments Ok {V}. Arguments Threw {V}.

(** clear (25-29), clear(name) (32-36: m_values twice) *)
Definition clear (a : archive) : archive := mkA [] [].
Definition clearName (a : archive) (n : bytes) : archive :=
  mkA (merase (merase (values a) n) n) (strings a).
(** setScalar (38-44); [d] is the 8-byte double *)
Definition setScalar (a : archive) (n d : bytes) : archive * status unit :=
  if validateName n then (mkA (mset (values a) n (mkM 1 1 d)) (strings a), Ok tt) else (a, Threw).
(** setString (46-53) *)
Definition setString (a : archive) (n v : bytes) : archive * status unit :=
  if validateName n then (mkA (merase (values a) n) (mset (strings a) n v), Ok tt) else (a, Threw).
(** setMatrix (MatrixArchive.hpp:122-129): the string is erased before the name is validated *)
Definition setMatrix (a : archive) (n : bytes) (m : matrix) : archive * status unit :=
  let a := mkA (values a) (merase (strings a) n) in
  if validateName n then (mkA (mset (values a) n m) (strings a), Ok tt) else (a, Threw).
(** setVector (MatrixArchive.hpp:132-137) *)
Definition setVector (a : archive) (n : bytes) (m : matrix) : archive * status unit :=
  if negb (N.eqb (m_cols m) 1) then (a, Threw)
  else if validateName n then (mkA (mset (values a) n m) (strings a), Ok tt) else (a, Threw).
(** createMatrix (66-79). [m] is the content the caller gives the new matrix through the returned reference. *)
Definition createMatrix (a : archive) (n : bytes) (m : matrix) (overwriteExisting : bool) : archive * status unit :=
  match (if overwriteExisting then None else mfind (values a) n) with
  | Some _ => (a, Threw)
  | None => (mkA (mset (values a) n m) (strings a), Ok tt)
  end.
(** getMatrix (81-89) *)
Definition getMatrix (a : archive) (n : bytes) : status matrix :=
  match mfind (values a) n with Some m => Ok m | None => Threw end.
(** getVector (96-107): column 0 *)
Definition getVector (a : archive) (n : bytes) : status bytes :=
  match mfind (values a) n with
  | None => Threw
  | Some m => if N.eqb (m_cols m) 1 then Ok (firstn (N.to_nat (m_rows m * 8)) (m_data m)) else Threw
  end.
(** getScalar (113-126) *)
Definition getScalar (a : archive) (n : bytes) : status bytes :=
  match mfind (values a) n with
  | None => Threw
  | Some m => if negb (N.eqb (m_rows m) 1) then Threw else if negb (N.eqb (m_cols m) 1) then Threw
              else Ok (firstn 8 (m_data m))
  end.
(** getString (136-143) *)
Definition getString (a : archive) (n : bytes) : status bytes :=
  match mfind (strings a) n with Some s => Ok s | None => Threw end.
(** size (168-179) *)
Definition sizeMatrices (a : archive) := length (values a).
Definition sizeStrings (a : archive) := length (strings a).
Definition size (a : archive) := sizeStrings a + sizeMatrices a.

(** ** Writing *)
Definition le4 (v : N) : bytes := le_bytes 4 v.
Definition CH_A : byte := 65%N. Definition CH_S : byte := 83%N. Definition CH_B : byte := 66%N.
(** writeName (196-203): width 32, fill ' ', right adjusted; throws on an invalid name *)
Definition writeName (name : bytes) : option bytes :=
  if validateName name then Some (padded name s_fixedNameSize 32%N) else None.
(** writeMatrixBlock (205-227): rows, cols are uint32; dataSize = uint32(uint32(rows*cols) * 8). The bytes written
    before an exception are the second component. *)
Definition writeMatrixBlock (name : bytes) (m : matrix) : bytes * bool :=
  match writeName name with
  | None => ([CH_A], false)
  | Some nm =>
      let rows := (m_rows m mod 2 ^ 32)%N in
      let cols := (m_cols m mod 2 ^ 32)%N in
      let dataSize := (((rows * cols) mod 2 ^ 32 * 8) mod 2 ^ 32)%N in
      ([CH_A] ++ nm ++ le4 rows ++ le4 cols ++ firstn (N.to_nat dataSize) (m_data m) ++ [CH_B], true)
  end.
(** writeStringBlock (252-267) *)
Definition writeStringBlock (name v : bytes) : bytes * bool :=
  match writeName name with
  | None => ([CH_S], false)
  | Some nm =>
      let stringSize := (N.of_nat (length v) mod 2 ^ 32)%N in
      ([CH_S] ++ nm ++ le4 stringSize ++ firstn (N.to_nat stringSize) v ++ [CH_B], true)
  end.
Definition selected (names : list bytes) (n : bytes) : bool :=
  match names with [] => true | _ => existsb (fun k => bytes_eqb k n) names end.
(** saveMatrices (377-395), saveStrings (396-408), save (371-375): file content and whether it returned normally *)
Section Save.
  Context {V : Type} (write : bytes -> V -> bytes * bool) (names : list bytes).
  Fixpoint saveAll (m : list (bytes * V)) : bytes * bool :=
    match m with
    | [] => ([], true)
    | (n, v) :: m' =>
        if selected names n then
          let '(b, ok) := write n v in
          if ok then let '(b', ok') := saveAll m' in (b ++ b', ok') else (b, false)
        else saveAll m'
    end.
End Save.
Definition save (names : list bytes) (a : archive) : bytes * bool :=
  let '(b, ok) := saveAll writeMatrixBlock names (values a) in
  if ok then let '(b', ok') := saveAll writeStringBlock names (strings a) in (b ++ b', ok') else (b, false).
(** append (439-443): opens the file for appending, writes nothing. File content before and after. *)
Definition append_file (names : list bytes) (a : archive) (file : bytes) : bytes := file.

(** ** Reading *)
(** std::istream: remaining bytes and failbit. *)
Record istream := mkI { rest : bytes; failed : bool }.
(** istream::read(dst, n) with [old i] the previous content of dst: on a short read what is there is stored and failbit
    set; after a failure nothing is stored. *)
Definition sread (s : istream) (n : nat) (old : nat -> byte) : bytes * istream :=
  if failed s then (map old (seq 0 n), s)
  else if n <=? length (rest s) then (firstn n (rest s), mkI (skipn n (rest s)) false)
  else (rest s ++ map old (seq (length (rest s)) (n - length (rest s))), mkI [] true).

(** boost::trim in the classic locale *)
Fixpoint trim_left (s : bytes) : bytes :=
  match s with c :: r => if is_space c then trim_left r else s | [] => [] end.
Definition trim (s : bytes) : bytes := rev (trim_left (rev (trim_left s))).

Inductive block := BMatrix (m : matrix) | BString (s : bytes).
(** readMatrix (235-250): dataSize = uint32(rows*cols) * 8 as a 64-bit number; resize leaves the data uninitialised *)
Definition readMatrix (J : junk) (s : istream) : matrix * istream :=
  let '(rb, s) := sread s 4 (J VRows) in
  let '(cb, s) := sread s 4 (J VCols) in
  let rows := le_val rb in
  let cols := le_val cb in
  let dataSize := N.to_nat ((rows * cols) mod 2 ^ 32 * 8) in
  let '(d, s) := sread s dataSize (J VData) in
  (mkM rows cols (d ++ map (J VData) (seq dataSize (N.to_nat (rows * cols * 8) - dataSize))), s).
(** readString (269-278); resize keeps old characters or fills with NUL, which is covered by [J VStr] *)
Definition readString (J : junk) (s : istream) : bytes * istream :=
  let '(zb, s) := sread s 4 (J VSize) in
  sread s (N.to_nat (le_val zb)) (J VStr).
(** readBlock (280-314); [None] = exception *)
Definition readBlock (J : junk) (s : istream) : option (bytes * block * istream) :=
  let '(st, s) := sread s 1 (J VStart) in
  let start := nth 0 st 0%N in
  if negb (N.eqb start CH_S) && negb (N.eqb start CH_A) then None
  else
    let '(nb, s) := sread s s_fixedNameSize (J VName) in
    let name := trim (c_str nb) in
    let '(b, s) := if N.eqb start CH_S then (let '(v, s) := readString J s in (BString v, s))
                   else (let '(m, s) := readMatrix J s in (BMatrix m, s)) in
    let '(e, s) := sread s 1 (J VEnd) in
    if N.eqb (nth 0 e 0%N) CH_B then Some (name, b, s) else None.

Definition store (a : archive) (n : bytes) (b : block) : archive :=
  match b with
  | BMatrix m => mkA (mset (values a) n m) (strings a)
  | BString v => mkA (values a) (mset (strings a) n v)
  end.
(** load (410-437). peek() sets eofbit exactly when nothing remains (or the stream has already failed, with eofbit set).
    Each iteration consumes at least one byte, so [length file] iterations are enough fuel; the k-th iteration finds the
    uninitialised variables as [J k]. *)
Fixpoint load_loop (fuel : nat) (J : nat -> junk) (k : nat) (names : list bytes) (s : istream) (a : archive)
  : archive * status unit :=
  match fuel with
  | O => (a, Ok tt)
  | S f =>
      if failed s || (match rest s with [] => true | _ => false end) then (a, Ok tt)
      else match readBlock (J k) s with
           | None => (a, Threw)
           | Some (n, b, s') =>
               if selected names n then
                 if validateName n then load_loop f J (S k) names s' (store a n b) else (a, Threw)
               else load_loop f J (S k) names s' a
           end
  end.
Definition load (J : nat -> junk) (names : list bytes) (file : bytes) (a : archive) : archive * status unit :=
  load_loop (S (length file)) J 0 names (mkI file false) a.

(** ** MATLAB *)
(** A field of a MATLAB struct: a numeric (double) or a char array with its column-major content. *)
Inductive mval := MNum (rows cols : N) (data : bytes) | MChar (rows cols : N) (data : bytes).
Inductive mstatus (V : Type) := MOk (v : V) | MError | MShort.   (* MShort: fread returned less than asked; not followed further *)
Arguments MOk {V}. Arguments MError {V}. Arguments MShort {V}.
(** saveMatrixArchive.m:28-38: field names; sprintf('%32s') pads on the left (50-56) *)
Definition ml_name_ok (n : bytes) : bool :=
  (length n <=? 32) && forallb (fun c => is_alnum c || N.eqb c 95) n.
(** lines 55-103; [None] = error(...) *)
Definition ml_block (n : bytes) (v : mval) : option bytes :=
  match v with
  | MNum r c d => if N.eqb r 0 || N.eqb c 0 then None
                  else Some ([CH_A] ++ padded n 32 32%N ++ le4 r ++ le4 c ++ d ++ [CH_B])
  | MChar r c d => if N.eqb r 0 || N.eqb c 0 then None
                   else Some ([CH_S] ++ padded n 32 32%N ++ le4 c ++ d ++ [CH_B])
  end.
Fixpoint ml_blocks (f : list (bytes * mval)) : option bytes :=
  match f with
  | [] => Some []
  | (n, v) :: f' => match ml_block n v, ml_blocks f' with Some x, Some y => Some (x ++ y) | _, _ => None end
  end.
Definition ml_save (f : list (bytes * mval)) (append : bool) (file : bytes) : option bytes :=
  if forallb (fun p => ml_name_ok (fst p)) f
  then match ml_blocks f with Some x => Some (if append then file ++ x else x) | None => None end
  else None.
(** fread of n elements of one byte; fewer if the file ends *)
Definition fread (s : bytes) (n : nat) : option (bytes * bytes) :=
  if n <=? length s then Some (firstn n s, skipn n s) else None.
(** loadMatrixArchive.m:29-72; a struct field assignment replaces an earlier field of the same name *)
Definition ml_set (f : list (bytes * mval)) (n : bytes) (v : mval) := mset f n v.
Fixpoint ml_load_loop (fuel : nat) (s : bytes) (f : list (bytes * mval)) : mstatus (list (bytes * mval)) :=
  match fuel with
  | O => MOk f
  | S fuel =>
    match fread s 1 with
    | None => MOk f
    | Some (st, s) =>
      let start := nth 0 st 0%N in
      if negb (N.eqb start CH_S) && negb (N.eqb start CH_A) then MError
      else match fread s 32 with
      | None => MShort
      | Some (nb, s) =>
        let name := trim nb in
        if length name =? 0 then MError
        else if N.eqb start CH_S then
          match fread s 4 with
          | None => MShort
          | Some (zb, s) =>
            match fread s (N.to_nat (le_val zb)) with
            | None => MShort
            | Some (d, s) =>
              match fread s 1 with
              | None => MShort
              | Some (e, s) => if negb (N.eqb (nth 0 e 0%N) CH_B) then MError
                               else ml_load_loop fuel s (ml_set f name (MChar 1 (le_val zb) d))
              end
            end
          end
        else
          match fread s 8 with
          | None => MShort
          | Some (zb, s) =>
            let r := le_val (firstn 4 zb) in
            let c := le_val (skipn 4 zb) in
            match fread s (N.to_nat (r * c * 8)) with
            | None => MShort
            | Some (d, s) =>
              match fread s 1 with
              | None => MShort
              | Some (e, s) => if negb (N.eqb (nth 0 e 0%N) CH_B) then MError
                               else ml_load_loop fuel s (ml_set f name (MNum r c d))
              end
            end
          end
      end
    end
  end.
Definition ml_load (file : bytes) : mstatus (list (bytes * mval)) := ml_load_loop (S (length file)) file [].
