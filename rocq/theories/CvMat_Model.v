(** Model of the serialization of OpenCV types: sm_opencv/include/sm/opencv/serialization.hpp 41-142.  cv::Mat is modelled as a header (shape,
    element type, data pointer, row step, continuity flag) over a memory of byte buffers, as in OpenCV 2.4 (two-dimensional matrices; reference
    counts, allocation failure and the range of int are not modelled).  An archive is the sequence of primitive items written to it: integers,
    floats, and the bytes of a binary object, which boost writes without a count. *)
From Coq Require Export ZArith List Bool Lia.
Export ListNotations.

Definition memory := list (list Z).
(** the header; buf = None is the NULL pointer, off the distance of data from the start of the buffer *)
Record header := Hd { hrows : nat; hcols : nat; htype : Z; hbuf : option nat; hoff : nat; hstep : nat; hcont : bool }.
(** CV_ELEM_SIZE: number of channels times the size of the depth (8U 8S 16U 16S 32S 32F 64F and the user type) *)
Definition depth_size (d : Z) : nat := if (d <? 2)%Z then 1 else if (d <? 4)%Z then 2 else if (d <? 6)%Z then 4 else 8.
Definition esize (ty : Z) : nat := (Z.to_nat (Z.land (Z.shiftr ty 3) 511) + 1) * depth_size (Z.land ty 7).
(** bytes of one row *)
Definition rowlen (h : header) : nat := hcols h * esize (htype h).

(** outcomes: a value, boost's archive_exception (stream ended, or an item of the wrong kind), cv::Exception (negative size), undefined behaviour *)
Inductive res (T : Type) := Ok (t : T) | StreamError | CvError | UB.
Arguments Ok {T}. Arguments StreamError {T}. Arguments CvError {T}. Arguments UB {T}.
Definition bind {T V} (r : res T) (f : T -> res V) : res V := match r with Ok t => f t | StreamError => StreamError | CvError => CvError | UB => UB end.

(** n bytes at an offset of a buffer *)
Definition slice (l : list Z) (o n : nat) : list Z := firstn n (skipn o l).
Definition read_mem (m : memory) (b : option nat) (o n : nat) : res (list Z) :=
  if Nat.eqb n 0 then Ok [] else match b with
  | None => UB
  | Some b => match nth_error m b with None => UB | Some l => if Nat.leb (o + n) (length l) then Ok (slice l o n) else UB end
  end.
Definition overwrite (l : list Z) (o : nat) (bs : list Z) : list Z := firstn o l ++ bs ++ skipn (o + length bs) l.
Fixpoint update (m : memory) (b : nat) (l : list Z) : memory :=
  match m, b with [], _ => [] | _ :: r, O => l :: r | x :: r, S k => x :: update r k l end.
Definition write_mem (m : memory) (b : option nat) (o : nat) (bs : list Z) : res memory :=
  if Nat.eqb (length bs) 0 then Ok m else match b with
  | None => UB
  | Some b => match nth_error m b with None => UB | Some l => if Nat.leb (o + length bs) (length l) then Ok (update m b (overwrite l o bs)) else UB end
  end.

(** ** the OpenCV operations that make headers *)
(** cv::Mat() *)
Definition empty_mat : header := Hd 0 0 0 None 0 0 true.
(** Mat::create(rows, cols, type): keeps the data if the shape and the type are the same and there are data; otherwise new data, here with the
    contents fill (uninitialised), or none if there are no elements *)
Definition create (m : memory) (h : header) (r c : nat) (ty : Z) (fill : nat -> Z) : memory * header :=
  let ty := Z.land ty 4095 in
  if Nat.eqb (hrows h) r && Nat.eqb (hcols h) c && Z.eqb (htype h) ty && match hbuf h with Some _ => true | None => false end then (m, h)
  else if Nat.eqb (r * c) 0 then (m, Hd r c ty None 0 (c * esize ty) true)
  else (m ++ [map fill (seq 0 (r * (c * esize ty)))], Hd r c ty (Some (length m)) 0 (c * esize ty) true).
(** Mat(m, Rect(x, y, w, h)): a region of m, sharing its data.  OpenCV asserts that it lies inside. *)
Definition region (p : header) (y x h w : nat) : header :=
  Hd h w (htype p) (hbuf p) (hoff p + y * hstep p + x * esize (htype p)) (hstep p) (Nat.eqb h 1 || ((hcols p <=? w)%nat && hcont p)).
(** the rows of a header, one after the other *)
Fixpoint rows_from (m : memory) (b : option nat) (o step len n : nat) : res (list Z) :=
  match n with
  | O => Ok []
  | S k => bind (read_mem m b o len) (fun r => bind (rows_from m b (o + step) step len k) (fun rest => Ok (r ++ rest)))
  end.
Definition clone_bytes (m : memory) (h : header) : res (list Z) := if Nat.eqb (hrows h * hcols h) 0 then Ok [] else rows_from m (hbuf h) (hoff h) (hstep h) (rowlen h) (hrows h).

(** ** archives *)
Inductive item := INum (z : Z) | IByte (b : Z).
Definition read_num (ar : list item) : res (Z * list item) := match ar with INum z :: r => Ok (z, r) | _ => StreamError end.
Fixpoint read_bytes (n : nat) (ar : list item) : res (list Z * list item) :=
  match n with
  | O => Ok ([], ar)
  | S k => match ar with IByte b :: r => bind (read_bytes k r) (fun '(l, r') => Ok (b :: l, r')) | _ => StreamError end
  end.

(** save (106-121): a matrix that is not continuous is cloned, its clone's step being the length of a row *)
Definition save (m : memory) (h : header) : res (list item) :=
  bind (if hcont h then read_mem m (hbuf h) (hoff h) (hstep h * hrows h) else clone_bytes m h) (fun bytes =>
  Ok ([INum (Z.of_nat (hrows h)); INum (Z.of_nat (hcols h)); INum (htype h)] ++ map IByte bytes)).
(** load (123-132) into the header h *)
Definition load (m : memory) (h : header) (fill : nat -> Z) (ar : list item) : res (memory * header * list item) :=
  bind (read_num ar) (fun '(r, ar) => bind (read_num ar) (fun '(c, ar) => bind (read_num ar) (fun '(ty, ar) =>
  if (r <? 0)%Z || (c <? 0)%Z then CvError
  else let '(m1, h1) := create m h (Z.to_nat r) (Z.to_nat c) ty fill in
       bind (read_bytes (hstep h1 * hrows h1) ar) (fun '(bytes, ar) =>
       bind (write_mem m1 (hbuf h1) (hoff h1) bytes) (fun m2 => Ok (m2, h1, ar)))))).

(** ** Point2f and KeyPoint (45-62): floats and ints are items like the integers above *)
Record keypoint := KP { kx : Z; ky : Z; ksize : Z; kangle : Z; kresponse : Z; koctave : Z; kclass : Z }.
Definition save_point (x y : Z) : list item := [INum x; INum y].
Definition load_point (ar : list item) : res (Z * Z * list item) := bind (read_num ar) (fun '(x, ar) => bind (read_num ar) (fun '(y, ar) => Ok (x, y, ar))).
Definition save_keypoint (k : keypoint) : list item := save_point (kx k) (ky k) ++ [INum (ksize k); INum (kangle k); INum (kresponse k); INum (koctave k); INum (kclass k)].
Definition load_keypoint (ar : list item) : res (keypoint * list item) :=
  bind (load_point ar) (fun '(x, y, ar) => bind (read_num ar) (fun '(s, ar) => bind (read_num ar) (fun '(a, ar) => bind (read_num ar) (fun '(r, ar) =>
  bind (read_num ar) (fun '(o, ar) => bind (read_num ar) (fun '(c, ar) => Ok (KP x y s a r o c, ar))))))).
