(** Model of sm_python/src/exportMatrixArchive.cpp (the MatrixArchive class of Python) and of the program
    sm_matrix_archive/src/lsma.cpp. The archive itself is Archive_Model.v.
    Simplified: numpy <-> Eigen conversions are identities on shape and column-major bytes (they are C34's subject); a
    Python str is its bytes; how Eigen prints a matrix is a parameter [show]. *)
From Verif Require Export Bytes.
From Verif Require Import HashId_Model Strings_Model Archive_Model.
Open Scope nat_scope.

(** A Python dict: keys in insertion order; d[k] = v replaces the value in place or appends. *)
Section Dict.
  Context {V : Type}.
  Definition pydict := list (bytes * V).
  Fixpoint d_set (d : pydict) (k : bytes) (v : V) : pydict :=
    match d with [] => [(k, v)] | (k', v') :: d' => if bytes_eqb k' k then (k', v) :: d' else (k', v') :: d_set d' k v end.
  Fixpoint d_get (d : pydict) (k : bytes) : option V :=
    match d with [] => None | (k', v') :: d' => if bytes_eqb k' k then Some v' else d_get d' k end.
  Definition d_keys (d : pydict) : list bytes := map fst d.
  Definition d_items (d : pydict) : list (bytes * V) := d.
End Dict.
Arguments pydict : clear implicits.

(** The mutators a Python program can call (exportMatrixArchive.cpp:93-110): no createMatrix, no reference into the
    archive (getMatrix returns a copy), load without a set of names. *)
Inductive pyop :=
  | PClear | PClearOne (n : bytes) | PSetScalar (n d : bytes) | PSetString (n v : bytes) | PSetMatrix (n : bytes) (m : matrix)
  | PSetVector (n : bytes) (len : N) (d : bytes) | PLoad (J : nat -> junk) (file : bytes).
(** lines 93-110; setMatrixXd, setVectorXd: MatrixArchive.cpp:450-457 (a VectorXd has one column) *)
Definition pystep (a : archive) (o : pyop) : archive * status unit :=
  match o with
  | PClear => (clear a, Ok tt)
  | PClearOne n => (clearName a n, Ok tt)
  | PSetScalar n d => setScalar a n d
  | PSetString n v => setString a n v
  | PSetMatrix n m => setMatrix a n m
  | PSetVector n len d => setVector a n (mkM len 1 d)
  | PLoad J file => load J [] file a
  end.
(** A Python program that catches the exceptions. *)
Definition pyrun_from (a : archive) (ops : list pyop) : archive := fold_left (fun a o => fst (pystep a o)) ops a.
Definition pyrun (ops : list pyop) : archive := pyrun_from empty ops.

(** getNameList (35-44), asDict (46-55), stringsAsDict (57-66) *)
Definition getNameList (a : archive) : list bytes := fold_left (fun l p => l ++ [fst p]) (values a) [].
Definition asDict (a : archive) : pydict matrix := fold_left (fun d p => d_set d (fst p) (snd p)) (values a) [].
Definition stringsAsDict (a : archive) : pydict bytes := fold_left (fun d p => d_set d (fst p) (snd p)) (strings a) [].

(** lsma.cpp:8-27: what is printed, and the exit status ([None]: terminated by an exception from load, after printing
    what the earlier arguments gave). [files] are the arguments with the contents of the files they name. *)
Definition NLb : bytes := [10%N].
Section Lsma.
  Variable show : matrix -> bytes.
  Definition lsma_one (prefix : bytes) (a : archive) : bytes :=
    concat (map (fun s => prefix ++ fst s ++ str " : " ++ snd s ++ NLb) (strings a)) ++
    concat (map (fun m => prefix ++ fst m ++ str " :" ++ NLb ++ show (snd m) ++ NLb) (values a)).
  Fixpoint lsma_loop (J : nat -> nat -> junk) (argc : nat) (k : nat) (files : list (bytes * bytes)) : bytes * option Z :=
    match files with
    | [] => ([], Some 0%Z)
    | (path, content) :: r =>
        match load (J k) [] content empty with
        | (_, Threw) => ([], None)
        | (ma, Ok _) =>
            let namePrefix := if 2 <? argc then path ++ str ":" else [] in
            let '(out, st) := lsma_loop J argc (S k) r in
            (lsma_one namePrefix ma ++ out, st)
        end
    end.
  Definition lsma (J : nat -> nat -> junk) (files : list (bytes * bytes)) : bytes * option Z :=
    let argc := S (length files) in
    if argc <? 2 then ([], Some (-1)%Z) else lsma_loop J argc 0 files.
End Lsma.
