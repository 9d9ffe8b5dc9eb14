(** Model of sm_logging/include/sm/logging/assert.h: SM_BREAK, SM_ASSERT, SM_ASSERT_MSG, SM_ASSERT_CMD (106-156).  The texts
    of the messages (file, line, condition as written) are parameters. *)
From Verif Require Import Bytes Float64 Logging_Model LogMacro_Model.
Open Scope nat_scope.

(** The condition of an assertion as written, without enclosing parentheses.  A parenthesised expression, a variable or a call is a
    primary; all operands are integers. *)
Inductive binop := OEq | ONe | OLt | OLe | OGt | OGe | OAnd | OOr | OPlus | OMinus | OBitAnd.
Inductive cexpr := Prim (v : Z) | Bin (o : binop) (l r : cexpr) | Tern (c t f : cexpr) | Not (e : cexpr).
Definition zb (b : bool) : Z := if b then 1%Z else 0%Z.
Definition nonzero (z : Z) : bool := negb (Z.eqb z 0).
Fixpoint ceval (e : cexpr) : Z :=
  match e with
  | Prim v => v
  | Bin o l r =>
      let a := ceval l in let b := ceval r in
      match o with
      | OEq => zb (Z.eqb a b) | ONe => zb (negb (Z.eqb a b)) | OLt => zb (Z.ltb a b) | OLe => zb (Z.leb a b)
      | OGt => zb (Z.ltb b a) | OGe => zb (Z.leb b a)
      | OAnd => zb (nonzero a && nonzero b) | OOr => zb (nonzero a || nonzero b)
      | OPlus => (a + b)%Z | OMinus => (a - b)%Z | OBitAnd => Z.land a b
      end
  | Tern c t f => if nonzero (ceval c) then ceval t else ceval f
  | Not x => zb (negb (nonzero (ceval x)))
  end.
(** `!cond` without parentheses around the macro parameter: ! binds tighter than every binary operator and than ?:, so it applies
    to the leftmost operand *)
Fixpoint bang (e : cexpr) : cexpr :=
  match e with
  | Bin o l r => Bin o (bang l) r
  | Tern c t f => Tern (bang c) t f
  | x => Not x
  end.

(** how control leaves: normally, or at SM_ISSUE_BREAK (int 3) *)
Inductive outcome := Continues (s : mstate) | Breaks (s : mstate) | Fails.
Definition fatal (package : bytes) (m : bytes) : use := mkU 10 Plain None false (pure m).
(** SM_FATAL(...) as statement id *)
Definition sm_fatal (min : nat) (package : bytes) (s : mstate) (id : nat) (m : bytes) (now : f64) : option mstate :=
  match expand min package (fatal package m) with None => Some s | Some t => exec_stmt s id t now end.
(** SM_ASSERT_ENABLED is NDEBUG not being defined (102-104) *)
Section A.
  Variables (ndebug : bool) (min : nat) (package : bytes).
  Fixpoint fatals (s : mstate) (l : list (nat * bytes)) (now : f64) : option mstate :=
    match l with [] => Some s | (id, m) :: r => match sm_fatal min package s id m now with Some s' => fatals s' r now | None => None end end.
  Definition then_break (o : option mstate) : outcome := match o with Some s => Breaks s | None => Fails end.
  (** SM_BREAK (107-111) *)
  Definition sm_break (s : mstate) (id : nat) (m : bytes) (now : f64) : outcome :=
    if ndebug then Continues s else then_break (fatals s [(id, m)] now).
  (** SM_ASSERT (113-119): the condition changes the variables *)
  Definition sm_assert (s : mstate) (cond : expr Z) (id : nat) (m : bytes) (now : f64) : outcome :=
    if ndebug then Continues s
    else match cond (menv s) with
         | None => Fails
         | Some (e, v) => let s1 := mkM (mg s) (mhit s) (mlast s) e (mout s) in
                          if negb (nonzero v) then then_break (fatals s1 [(id, m)] now) else Continues s1
         end.
  (** SM_ASSERT_MSG (121-129): three messages *)
  Definition sm_assert_msg (s : mstate) (cond : expr Z) (id : nat) (m user : bytes) (now : f64) : outcome :=
    if ndebug then Continues s
    else match cond (menv s) with
         | None => Fails
         | Some (e, v) => let s1 := mkM (mg s) (mhit s) (mlast s) e (mout s) in
                          if negb (nonzero v) then then_break (fatals s1 [(id, m); (S id, user); (S (S id), [10%N])] now) else Continues s1
         end.
  (** SM_ASSERT_CMD (131-136): is the command executed *)
  Definition sm_assert_cmd (cond : cexpr) : bool := if ndebug then false else nonzero (ceval (bang cond)).
End A.
