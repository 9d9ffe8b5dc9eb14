(** Model of the comparison macros of sm_common/include/sm/serialization_macros.hpp (113-381) at the level of
    tokens, and of the isBinaryEqual functions written with them. *)
From Verif Require Import Bytes.
Open Scope nat_scope.

(** Tokens of the expanded expression. A parenthesised sub-expression or a call is a primary [P v] with its
    boolean value [v] (printing in the verbose case is not modelled). *)
Inductive tok := P (v : bool) | AND | QM | COL.

Inductive expr := Prim (v : bool) | And (a b : expr) | Cond (c t e : expr).

(** C++ grammar (expr.log.and / expr.cond):
      logical-and  ::= primary { && primary }
      conditional  ::= logical-and | logical-and ? expression : assignment-expression *)
Fixpoint parse_and_rest (acc : expr) (l : list tok) : expr * list tok :=
  match l with
  | AND :: l1 => match l1 with
                 | P v :: r => parse_and_rest (And acc (Prim v)) r
                 | _ => (acc, l)
                 end
  | _ => (acc, l)
  end.
Definition parse_and (l : list tok) : option (expr * list tok) :=
  match l with P v :: r => Some (parse_and_rest (Prim v) r) | _ => None end.
Fixpoint parse_cond (fuel : nat) (l : list tok) : option (expr * list tok) :=
  match fuel with
  | O => None
  | S f =>
      match parse_and l with
      | Some (c, QM :: r) =>
          match parse_cond f r with
          | Some (t, COL :: r2) =>
              match parse_cond f r2 with
              | Some (e, r3) => Some (Cond c t e, r3)
              | None => None
              end
          | _ => None
          end
      | x => x
      end
  end.
Fixpoint eval (e : expr) : bool :=
  match e with
  | Prim v => v
  | And a b => if eval a then eval b else false
  | Cond c t f => if eval c then eval t else eval f
  end.
(** The value of a complete expression; [None] = syntax error. *)
Definition value_of (l : list tok) : option bool :=
  match parse_cond (S (length l)) l with Some (e, []) => Some (eval e) | _ => None end.

(** SM_SERIALIZATION_CHECKSAME_IMPL (322-349) and SM_SERIALIZATION_CHECKMEMBERSSAME_IMPL (355-381): a parenthesised
    comparison [same], then  ? true : (VERBOSE ? (std::cout << ...) && false : false). *)
Definition check_tokens (verbose same : bool) : list tok :=
  [P same; QM; P true; COL; P (if verbose then true && false else false)].

(** SM_SERIALIZATION_CHECKSAME_VERBOSE (318-320): SET(...) && IMPL; SetVerbose returns true. *)
Definition check_verbose_tokens (verbose same : bool) : list tok :=
  [P true; AND] ++ check_tokens verbose same.

(** A conjunction M1 && ... && Mn of macro uses, as written in isBinaryEqual functions. *)
Fixpoint conj_tokens (verbose : bool) (sames : list bool) : list tok :=
  match sames with
  | [] => [P true]
  | [s] => check_tokens verbose s
  | s :: r => check_tokens verbose s ++ [AND] ++ conj_tokens verbose r
  end.

(** isSame<..., A*>::eval and isSame<..., shared_ptr<A>>::eval (146-155, 158-168, 178-187, 190-200): pointers are
    [option addr] ([None] = null); [None] result = null pointer dereferenced (undefined). *)
Section IsSame.
  Variables (addr A : Type) (heap : addr -> A) (eqA : A -> A -> bool).
  Definition deref (p : option addr) : option A := option_map heap p.
  Definition isSame_ptr (lhs rhs : option addr) : option bool :=
    let isnull p := match p with None => true | Some _ => false end in
    if (isnull lhs && isnull rhs)%bool then Some true
    else if (isnull lhs || isnull rhs)%bool then Some false
    else match deref lhs, deref rhs with
         | Some x, Some y => Some (eqA x y)
         | _, _ => None
         end.
End IsSame.

(** Objects with two compared members, e.g. Transformation (_q_a_b, _t_a_b_a),
    UncertainVector (_v, _E / _sigma2); members are lists of scalars compared element-wise (Eigen ==). *)
Section Members.
  Variables (S : Type) (eqS : S -> S -> bool).
  Fixpoint mat_eqb (a b : list S) : bool :=
    match a, b with
    | [], [] => true
    | x :: a', y :: b' => eqS x y && mat_eqb a' b'
    | _, _ => false
    end.
  (** Transformation::isBinaryEqual (sm_kinematics/src/Transformation.cpp:131-134),
      UncertainVector::isBinaryEqual (implementation/UncertainVector.hpp:184 and 199). *)
  Record pair_obj := mkPair { m1 : list S; m2 : list S }.
  Definition pair_isBinaryEqual (verbose : bool) (a b : pair_obj) : option bool :=
    value_of (check_tokens verbose (mat_eqb (m1 a) (m1 b)) ++ [AND] ++
              check_tokens verbose (mat_eqb (m2 a) (m2 b))).

  (** HomogeneousPoint::isBinaryEqual (HomogeneousPoint.cpp:219-222). *)
  Definition hp_isBinaryEqual (verbose : bool) (ph1 ph2 : list S) : option bool :=
    value_of (check_tokens verbose (mat_eqb ph1 ph2)).
  (** X::isBinaryEqual(rhs) && SM_CHECKMEMBERSSAME(rhs, _U): UncertainHomogeneousPoint.cpp:216 and
      UncertainTransformation.cpp:169; [base] is the value of the base class call. *)
  Definition uncertain_isBinaryEqual (verbose : bool) (base : option bool) (u1 u2 : list S) : option bool :=
    match base with
    | Some v => value_of ([P v; AND] ++ check_tokens verbose (mat_eqb u1 u2))
    | None => None
    end.
End Members.
Arguments mkPair {S}. Arguments m1 {S}. Arguments m2 {S}.

(** [same = same && MACRO(m1); same = same && MACRO(m2); ...] (the form used in test/serialization_macros.cpp). *)
Fixpoint accumulate (verbose : bool) (same : bool) (ms : list bool) : option bool :=
  match ms with
  | [] => Some same
  | m :: r => match value_of ([P same; AND] ++ check_tokens verbose m) with
              | Some s => accumulate verbose s r
              | None => None
              end
  end.

(** A continuous cv::Mat: header and row-major data; reading outside the data buffer is undefined. *)
Record mat := mkMat { rows : nat; cols : nat; depth : N; mtype : N; elemSize : nat; data : bytes }.
Definition wf_mat (m : mat) : Prop := length (data m) = rows m * (cols m * elemSize m).

Inductive res := Val (b : bool) | UB.
(** byte loop of one row (27-30) *)
Fixpoint cmp_row (verbose : bool) (m1 m2 : mat) (o1 o2 : nat) (n : nat) (isEqual : bool) : res :=
  match n with
  | O => Val isEqual
  | S n' =>
      if isEqual then
        match nth_error (data m1) o1, nth_error (data m2) o2 with
        | Some x, Some y =>
            match value_of (check_tokens verbose (N.eqb x y)) with
            | Some e => cmp_row verbose m1 m2 (o1 + 1) (o2 + 1) n' e
            | None => UB
            end
        | _, _ => UB
        end
      else Val isEqual
  end.
(** row loop (23-32) *)
Fixpoint cmp_rows (verbose : bool) (m1 m2 : mat) (r todo : nat) (isEqual : bool) : res :=
  match todo with
  | O => Val isEqual
  | S t =>
      match cmp_row verbose m1 m2 (r * (cols m1 * elemSize m1)) (r * (cols m2 * elemSize m2))
                    (cols m1 * elemSize m1) isEqual with
      | Val e => cmp_rows verbose m1 m2 (r + 1) t e
      | UB => UB
      end
  end.
(** sm::opencv::isBinaryEqual (sm_opencv/include/sm/opencv/serialization.hpp:14-35). *)
Definition cv_isBinaryEqual (verbose : bool) (m1 m2 : mat) : res :=
  match value_of (conj_tokens verbose
    [rows m1 =? rows m2; cols m1 =? cols m2; N.eqb (depth m1) (depth m2);
     N.eqb (mtype m1) (mtype m2); elemSize m1 =? elemSize m2]) with
  | Some true => cmp_rows verbose m1 m2 0 (rows m1) true
  | Some false => Val false
  | None => UB
  end.
