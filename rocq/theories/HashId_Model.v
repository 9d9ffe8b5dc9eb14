(** Model of [sm::HashId], sm_common/include/sm/hash_id.hpp (lines cited per definition).
    The 128-bit union [HashVal] (hash_id.hpp:180-184) is its 16 bytes [c[0..15]]; the view
    [u64[0], u64[1]] is the little-endian reading of bytes 0-7 and 8-15 (little-endian 64-bit
    target assumed, as for [kIs64BitArch]). [random()/randomize()] (52-56, 120-128) draw from
    std::mt19937_64 and are not modelled. *)
From Verif Require Import Bytes.
Open Scope N_scope.

Definition hashid := bytes.
Definition wf_id (h : hashid) : Prop := List.length h = 16%nat /\ wf_bytes h.

(** Little-endian value of a byte list (union view, hash_id.hpp:180-183). *)
Fixpoint le_val (l : bytes) : N :=
  match l with [] => 0 | b :: r => b + 256 * le_val r end.

Definition u0 (h : hashid) : N := le_val (firstn 8 h).
Definition u1 (h : hashid) : N := le_val (skipn 8 h).

(** Little-endian bytes of a 64-bit word, [n] bytes. *)
Fixpoint le_bytes (n : nat) (v : N) : bytes :=
  match n with O => [] | S k => (v mod 256) :: le_bytes k (v / 256) end.

(** fromUint64 (38-41): memcpy of two 64-bit words. *)
Definition fromUint64 (a b : N) : hashid := le_bytes 8 a ++ le_bytes 8 b.
(** toUint64 (43-46). *)
Definition toUint64 (h : hashid) : N * N := (u0 h, u1 h).

(** kHexConversion, sm_common/src/hash_id.cpp: "0123456789abcdef". *)
Definition kHexConversion : bytes := str "0123456789abcdef".
Definition hexdigit (i : N) : byte := nth (N.to_nat i) kHexConversion 0.

(** hexString (61-69): per byte the high nibble then the low nibble. *)
Fixpoint hexString (h : hashid) : bytes :=
  match h with
  | [] => []
  | b :: r => hexdigit (N.shiftr b 4) :: hexdigit (N.land b 15) :: hexString r
  end.

(** Value of one hex digit for [strtoul(.,.,16)]; [None]: not a hex digit. *)
Definition hexval (c : byte) : option N :=
  if is_digit c then Some (c - 48)
  else if (65 <=? c) && (c <=? 70) then Some (c - 55)
  else if (97 <=? c) && (c <=? 102) then Some (c - 87)
  else None.

(** strtoul digit loop, base 16: consume hex digits; [None] if there is none. *)
Fixpoint digits (seen : bool) (acc : N) (s : bytes) : option N :=
  match s with
  | [] => if seen then Some acc else None
  | c :: r => match hexval c with
              | Some d => digits true (acc * 16 + d) r
              | None => if seen then Some acc else None
              end
  end.

Fixpoint skip_space (s : bytes) : bytes :=
  match s with c :: r => if is_space c then skip_space r else s | [] => [] end.

(** The optional 0x / 0X prefix is consumed only if a hex digit follows. *)
Definition strip_0x (s : bytes) : bytes :=
  match s with
  | 48 :: x :: d :: r =>
      if ((x =? 120) || (x =? 88)) && is_xdigit d then d :: r else s
  | _ => s
  end.

(** std::stoul(s, 0, 16) on a string whose value fits in 64 bits (here at most two characters, so
    out_of_range cannot occur): leading white space, optional sign, optional 0x, digits; trailing
    garbage ignored; [None] = std::invalid_argument.  A '-' negates modulo 2^64 (C standard). *)
Definition stoul16 (s : bytes) : option N :=
  let s := skip_space s in
  match s with
  | 45 :: r => match digits false 0 (strip_0x r) with
               | Some v => Some ((2^64 - v) mod 2^64)
               | None => None
               end
  | 43 :: r => digits false 0 (strip_0x r)
  | _ => digits false 0 (strip_0x s)
  end.

(** Outcome of fromHexString: returned flag and object state, or the exception escaping from stoul
    with the (partially modified) object state. *)
Inductive fhs_result :=
| FhsReturn (ok : bool) (h : hashid)
| FhsThrow (h : hashid).

(** Loop of fromHexString (80-83): [done] already written bytes, [old] remaining old bytes. *)
Fixpoint fhs_loop (done old : bytes) (s : bytes) : fhs_result :=
  match old, s with
  | o :: old', a :: b :: s' =>
      match stoul16 [a; b] with
      | Some v => fhs_loop (done ++ [v mod 256]) old' s'   (* static_cast<unsigned char> *)
      | None => FhsThrow (done ++ o :: old')
      end
  | _, _ => FhsReturn true (done ++ old)
  end.

(** fromHexString (75-85). *)
Definition fromHexString (h : hashid) (s : bytes) : fhs_result :=
  if negb (Nat.eqb (List.length s) 32) then FhsReturn false h
  else fhs_loop [] h s.

(** HashPrimeAndBase (16-21), 64-bit case. *)
Definition kPrime : N := 1099511628211.
Definition kOffsetBasis : N := 14695981039346656037.

(** hashToSizeT (93-100), size_t arithmetic modulo 2^64. *)
Definition hashToSizeT (h : hashid) : N :=
  let hash := kOffsetBasis in
  let hash := N.lxor hash (u0 h) in
  let hash := (hash * kPrime) mod 2^64 in
  let hash := N.lxor hash (u1 h) in
  let hash := (hash * kPrime) mod 2^64 in
  hash.

(** hashToSizeTFast (109-114). *)
Definition hashToSizeTFast (h : hashid) : N :=
  N.lxor (N.lxor kOffsetBasis (u0 h)) (u1 h).

(** operator< (134-139), operator> (140-145), operator== (146-148), operator!= (149-151). *)
Definition id_lt (a b : hashid) : bool :=
  if u0 a =? u0 b then u1 a <? u1 b else u0 a <? u0 b.
Definition id_gt (a b : hashid) : bool :=
  if u0 a =? u0 b then u1 b <? u1 a else u0 b <? u0 a.
Definition id_eq (a b : hashid) : bool := (u0 a =? u0 b) && (u1 a =? u1 b).
Definition id_ne (a b : hashid) : bool := negb (id_eq a b).

(** setInvalid (156-158) / default constructor (28-30), isValid (159-161). *)
Definition invalid_id : hashid := repeat 0 16.
Definition isValid (h : hashid) : bool := negb (u0 h =? 0) || negb (u1 h =? 0).
