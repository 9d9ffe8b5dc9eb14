(** The file format and the abstract view of a MatrixArchive, written without reference to the code. *)
From Verif Require Export Bytes.
From Verif Require Import HashId_Model Strings_Model Archive_Model.
Open Scope nat_scope.

(** Names: 1 to 32 characters, first a letter, then letters, digits or '_'. *)
Definition letter (c : N) : Prop := (65 <= c <= 90 \/ 97 <= c <= 122)%N.
Definition digit (c : N) : Prop := (48 <= c <= 57)%N.
Definition valid_name (n : bytes) : Prop :=
  length n <= 32 /\ exists c r, n = c :: r /\ letter c /\ forall x, In x r -> letter x \/ digit x \/ x = 95%N.

(** Four little-endian bytes. *)
Definition u32 (v : N) : bytes := [v mod 256; v / 256 mod 256; v / 65536 mod 256; v / 16777216 mod 256]%N.
(** One block of the file: 'A', the name right-aligned in 32 characters, rows, columns, data, 'B'; or 'S', name, size,
    characters, 'B'. *)
Definition encode (nb : bytes * block) : bytes :=
  let '(n, b) := nb in
  match b with
  | BMatrix m => str "A" ++ repeat 32%N (32 - length n) ++ n ++ u32 (m_rows m) ++ u32 (m_cols m) ++ m_data m ++ str "B"
  | BString s => str "S" ++ repeat 32%N (32 - length n) ++ n ++ u32 (N.of_nat (length s)) ++ s ++ str "B"
  end.
Definition encode_all (l : list (bytes * block)) : bytes := concat (map encode l).
(** The shape agrees with the data and everything is below 2^32 bytes. *)
Definition fits (b : block) : Prop :=
  match b with
  | BMatrix m => length (m_data m) = N.to_nat (m_rows m * m_cols m * 8) /\
                 (m_rows m < 2 ^ 32 /\ m_cols m < 2 ^ 32 /\ m_rows m * m_cols m * 8 < 2 ^ 32)%N
  | BString s => (N.of_nat (length s) < 2 ^ 32)%N
  end.

(** The blocks of an archive, matrices first. *)
Definition contents (a : archive) : list (bytes * block) :=
  map (fun p => (fst p, BMatrix (snd p))) (values a) ++ map (fun p => (fst p, BString (snd p))) (strings a).

(** The value a list of blocks gives to a name: the last one of that kind. *)
Fixpoint last_matrix (l : list (bytes * block)) (n : bytes) : option matrix :=
  match l with
  | [] => None
  | (k, b) :: l' => match last_matrix l' n with
                    | Some m => Some m
                    | None => match b with BMatrix m => if bytes_eqb k n then Some m else None | BString _ => None end
                    end
  end.
Fixpoint last_string (l : list (bytes * block)) (n : bytes) : option bytes :=
  match l with
  | [] => None
  | (k, b) :: l' => match last_string l' n with
                    | Some m => Some m
                    | None => match b with BString s => if bytes_eqb k n then Some s else None | BMatrix _ => None end
                    end
  end.
Definition or_else {A} (x y : option A) : option A := match x with Some v => Some v | None => y end.
(** [merged l a a']: a' is a with the blocks l added or overwritten. *)
Definition merged (l : list (bytes * block)) (a a' : archive) : Prop :=
  forall n, mfind (values a') n = or_else (last_matrix l n) (mfind (values a) n) /\
            mfind (strings a') n = or_else (last_string l n) (mfind (strings a) n).
(** Filter by a set of names; the empty set stands for all names. *)
Definition wanted (names : list bytes) (n : bytes) : Prop := names = [] \/ In n names.

(** A block as it may occur in an arbitrary file: any 32 bytes as name field (cut at a NUL, white space trimmed) and any
    two or one little-endian numbers. If rows*cols >= 2^32 the file does not contain all of the matrix; the rest of the
    matrix is uninitialised memory [J VData]. *)
Inductive raw (J : junk) : bytes -> block -> bytes -> Prop :=
| raw_matrix : forall nb rb cb d, length nb = 32 -> length rb = 4 -> length cb = 4 ->
    length d = N.to_nat ((le_val rb * le_val cb) mod 2 ^ 32 * 8) ->
    raw J (trim (c_str nb))
        (BMatrix (mkM (le_val rb) (le_val cb) (d ++ map (J VData) (seq (length d) (N.to_nat (le_val rb * le_val cb * 8) - length d)))))
        (CH_A :: nb ++ rb ++ cb ++ d ++ [CH_B])
| raw_string : forall nb zb d, length nb = 32 -> length zb = 4 -> length d = N.to_nat (le_val zb) ->
    raw J (trim (c_str nb)) (BString d) (CH_S :: nb ++ zb ++ d ++ [CH_B]).

