(** Model of the texts of sm_common/include/sm/assert_macros.hpp (SM_THROW and the SM_ASSERT_* macros, 31-446) and of
    sm_common/include/sm/source_file_pos.hpp (12-40).  Values are C++ ints and doubles; an expression may change the variables [E] of the
    program.  The operands of one comparison and of a chain of << are evaluated from left to right (C++ before C++17 leaves the order
    open).  __FILE__, __FUNCTION__, __LINE__ and the exception type are parameters.  A std::stringstream prints a double with six
    significant digits. *)
From Verif Require Import Bytes Float64 NumCmp_Model Timer_Model DoubleText_Model.
From Flocq Require Import BinarySingleNaN.
Open Scope nat_scope.

Inductive cval := CI (z : Z) | CD (d : f64).
(** usual arithmetic conversions *)
Definition to_d (v : cval) : f64 := match v with CI z => fofZ z | CD d => d end.
Definition c_lt (a b : cval) : bool := match a, b with CI x, CI y => Z.ltb x y | _, _ => fltb (to_d a) (to_d b) end.
Definition c_le (a b : cval) : bool := match a, b with CI x, CI y => Z.leb x y | _, _ => fleb (to_d a) (to_d b) end.
Definition c_eq (a b : cval) : bool := match a, b with CI x, CI y => Z.eqb x y | _, _ => feqb (to_d a) (to_d b) end.
Definition c_true (a : cval) : bool := match a with CI x => negb (Z.eqb x 0) | CD d => negb (feqb d fzero) end.
(** operator<< *)
Definition c_print (v : cval) : bytes := match v with CI z => dec z | CD d => print_double 6 d end.

(** source_file_pos::toString and operator<< (source_file_pos.hpp:25-30, 36-40) *)
Definition sfp_text (function file : bytes) (line : Z) : bytes :=
  file ++ str ":" ++ dec line ++ str ": " ++ function ++ str "()".
(** sm_throw_exception (34-46) called with "[" #exceptionType "] " *)
Definition exception_text (type function file : bytes) (line : Z) (message : bytes) : bytes :=
  (str "[" ++ type ++ str "] ") ++ sfp_text function file line ++ str " " ++ message.

Section Macros.
  Variable E : Type.
  (** a macro argument: #arg and the expression *)
  Record arg := mkA { src : bytes; ev : E -> E * cval }.
  Definition piece := E -> E * bytes.
  Definition lit (s : string) : piece := fun e => (e, str s).
  Definition name (a : arg) : piece := fun e => (e, src a).
  Definition show (a : arg) : piece := fun e => let (e1, v) := ev a e in (e1, c_print v).
  Definition show_d (f : E -> E * f64) : piece := fun e => let (e1, d) := f e in (e1, c_print (CD d)).
  (** a chain of << *)
  Fixpoint stream (l : list piece) (e : E) : E * bytes :=
    match l with
    | [] => (e, [])
    | p :: r => let (e1, t) := p e in let (e2, t2) := stream r e1 in (e2, t ++ t2)
    end.
  Definition test := E -> E * bool.
  Definition cmp (f : cval -> cval -> bool) (a b : arg) : test :=
    fun e => let (e1, x) := ev a e in let (e2, y) := ev b e1 in (e2, f x y).
  Definition or_else (p q : test) : test := fun e => let (e1, b) := p e in if b then (e1, true) else q e1.
  Definition ge (x y : cval) := c_le y x.
  Definition gt (x y : cval) := c_lt y x.
  Definition ne (x y : cval) := negb (c_eq x y).
  Definition zero_d : arg := mkA (str "0.0") (fun e => (e, CD fzero)).
  (** fabs((testValue) - (value)), fabs(abs_error); integer operands are converted to double first here *)
  Definition dist (t v : arg) : E -> E * f64 :=
    fun e => let (e1, x) := ev t e in let (e2, y) := ev v e1 in (e2, fabs (fsub (to_d x) (to_d y))).
  Definition mag (a : arg) : E -> E * f64 := fun e => let (e1, x) := ev a e in (e1, fabs (to_d x)).

  Inductive macro :=
  | A_TRUE (c : arg) | A_FALSE (c : arg)
  | A_GE_LT (v lo hi : arg) | A_GT_LE (v lo hi : arg) | A_GE_LE (v lo hi : arg)
  | A_LT (v hi : arg) | A_GE (v lo : arg) | A_LE (v hi : arg) | A_GT (v lo : arg)
  | A_POSITIVE (v : arg) | A_NONNEGATIVE (v : arg) | A_NEGATIVE (v : arg) | A_NONPOSITIVE (v : arg) | A_ZERO (v : arg)
  | A_NOTNULL (v : arg) | A_NULL (v : arg)
  | A_EQ (v t : arg) | A_NE (v t : arg) | A_NEAR (v t err : arg) | A_FINITE (v : arg) | A_NOTNAN (v : arg).

  (** the condition in the if of each macro *)
  Definition fails (m : macro) : test :=
    match m with
    | A_TRUE c => fun e => let (e1, v) := ev c e in (e1, negb (c_true v))                               (* 85-86 *)
    | A_FALSE c => fun e => let (e1, v) := ev c e in (e1, c_true v)                                     (* 93-94 *)
    | A_GE_LT v lo hi => or_else (cmp c_lt v lo) (cmp ge v hi)                                          (* 103-104 *)
    | A_GT_LE v lo hi => or_else (cmp c_le v lo) (cmp gt v hi)                                          (* 111-112 *)
    | A_GE_LE v lo hi => or_else (cmp c_lt v lo) (cmp gt v hi)                                          (* 119-120 *)
    | A_LT v hi => cmp ge v hi                                                                          (* 127-128 *)
    | A_GE v lo => cmp c_lt v lo                                                                        (* 135-136 *)
    | A_LE v hi => cmp gt v hi                                                                          (* 145-146 *)
    | A_GT v lo => cmp c_le v lo                                                                        (* 153-154 *)
    | A_POSITIVE v => cmp c_le v zero_d                                                                 (* 161-162 *)
    | A_NONNEGATIVE v => cmp c_lt v zero_d                                                              (* 169-170 *)
    | A_NEGATIVE v => cmp ge v zero_d                                                                   (* 177-178 *)
    | A_NONPOSITIVE v => cmp gt v zero_d                                                                (* 185-186 *)
    | A_ZERO v => cmp ne v zero_d                                                                       (* 193-194 *)
    | A_NOTNULL v => fun e => let (e1, x) := ev v e in (e1, negb (c_true x))                            (* 201-202 *)
    | A_NULL v => fun e => let (e1, x) := ev v e in (e1, c_true x)                                      (* 209-210 *)
    | A_EQ v t => cmp ne v t                                                                            (* 217-218 *)
    | A_NE v t => cmp c_eq v t                                                                          (* 225-226 *)
    | A_NEAR v t err => fun e => let (e1, d) := dist t v e in let (e2, m) := mag err e1 in (e2, negb (fleb d m)) (* 233-234 *)
    | A_FINITE v => fun e => let (e1, x) := ev v e in (e1, negb (is_finite (to_d x)))                   (* 241-242 *)
    | A_NOTNAN v => fun e => let (e1, x) := ev v e in (e1, is_nan (to_d x))                             (* 249-250 *)
    end.

  (** what is written before the message, after assert( or debug assert( *)
  Definition two (v : arg) (op : string) (t : arg) : list piece :=
    [name v; lit op; name t; lit ") failed ["; show v; lit op; show t; lit "]: "].
  Definition three (lo : arg) (op1 : string) (v : arg) (op2 : string) (hi : arg) : list piece :=
    [name lo; lit op1; name v; lit op2; name hi; lit ") failed ["; show lo; lit op1; show v; lit op2; show hi; lit "]: "].
  Definition with_zero (v : arg) (op : string) : list piece :=
    [name v; lit op; lit "0.0) failed ["; show v; lit op; lit "0.0]: "].
  Definition explanation (m : macro) : list piece :=
    match m with
    | A_TRUE c => [name c; lit ") failed: "]
    | A_FALSE c => [lit " not "; name c; lit ") failed: "]
    | A_GE_LT v lo hi => three lo " <= " v " < " hi
    | A_GT_LE v lo hi => three lo " < " v " <= " hi
    | A_GE_LE v lo hi => three lo " <= " v " <= " hi
    | A_LT v hi => two v " < " hi
    | A_GE v lo => two v " >= " lo
    | A_LE v hi => two v " <= " hi
    | A_GT v lo => two v " > " lo
    | A_POSITIVE v => with_zero v " > "
    | A_NONNEGATIVE v => with_zero v " >= "
    | A_NEGATIVE v => with_zero v " < "
    | A_NONPOSITIVE v => with_zero v " >= "                                                             (* 188, as written *)
    | A_ZERO v => with_zero v " == "
    | A_NOTNULL v => [name v; lit " != NULL) failed: "]
    | A_NULL v => [name v; lit " == NULL) failed: "]
    | A_EQ v t => two v " == " t
    | A_NE v t => two v " != " t
    | A_NEAR v t err => [name v; lit " == "; name t; lit ") failed ["; show v; lit " == "; show t; lit " ("; show_d (dist t v);
                         lit " > "; show_d (mag err); lit ")]: "]
    | A_FINITE v => [lit "isfinite("; name v; lit ")) failed [isfinite("; show v; lit ") = false]: "]
    | A_NOTNAN v => [lit "!isnan("; name v; lit ")) failed: "]
    end.

  Inductive outcome := Passed (e : E) | Threw (e : E) (text : bytes).
  (** the statement SM_ASSERT_X(type, ..., message) or, with [debug], SM_ASSERT_X_DBG (257-446), in a program compiled with or without
      NDEBUG and SM_ALWAYS_ASSERT; there is no SM_ASSERT_NULL_DBG *)
  Definition assertion (debug ndebug always : bool) (m : macro) (type function file : bytes) (line : Z) (message : piece) (e : E) : outcome :=
    if (debug && ndebug && negb always)%bool then Passed e
    else let (e1, b) := fails m e in
         if b then let (e2, t) := stream (lit (if debug then "debug assert(" else "assert(") :: explanation m ++ [message]) e1 in
                   Threw e2 (exception_text type function file line t)
         else Passed e1.
  (** SM_THROW (69-74) *)
  Definition sm_throw (type function file : bytes) (line : Z) (message : piece) (e : E) : outcome :=
    let (e1, t) := message e in Threw e1 (exception_text type function file line t).
End Macros.
