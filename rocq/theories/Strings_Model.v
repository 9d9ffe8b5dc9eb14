(** Model of sm_common/include/sm/string_routines.hpp.
    [std::string] = list of bytes; positions are [nat] (a std::string is shorter than npos);
    [std::string::npos] is [None] of type [option nat]. *)
From Verif Require Import Bytes.
Open Scope nat_scope.

(** Index of the first [c] in [s]. *)
Fixpoint find_idx (c : byte) (s : bytes) : option nat :=
  match s with
  | [] => None
  | x :: r => if N.eqb x c then Some 0 else option_map S (find_idx c r)
  end.

(** std::string::find(char, pos). *)
Definition find_from (c : byte) (s : bytes) (pos : nat) : option nat :=
  option_map (fun k => pos + k) (find_idx c (skipn pos s)).

(** Index of the last [c] in [s]. *)
Fixpoint rfind_idx (c : byte) (s : bytes) : option nat :=
  match s with
  | [] => None
  | x :: r => match rfind_idx c r with
              | Some k => Some (S k)
              | None => if N.eqb x c then Some 0 else None
              end
  end.

(** std::string::rfind(char, pos): the last match at an index <= pos; pos = npos: whole string. *)
Definition rfind_from (c : byte) (s : bytes) (pos : option nat) : option nat :=
  match pos with
  | None => rfind_idx c s
  | Some p => rfind_idx c (firstn (S p) s)
  end.

(** str[pos] = v *)
Fixpoint set_nth (s : bytes) (pos : nat) (v : byte) : bytes :=
  match s, pos with
  | [], _ => []
  | _ :: r, O => v :: r
  | x :: r, S p => x :: set_nth r p v
  end.

(** replace (12-26); the while loop runs on fuel, [None] = still looping when fuel is exhausted. *)
Fixpoint replace_loop (fuel : nat) (str : bytes) (target replacement : byte) (skip pos : nat)
  : option bytes :=
  match fuel with
  | O => None
  | S fuel' =>
      match find_from target str pos with
      | None => Some str
      | Some pos =>
          match skip with
          | S skip' => replace_loop fuel' str target replacement skip' (pos + 1)
          | O => replace_loop fuel' (set_nth str pos replacement) target replacement 0 pos
          end
      end
  end.
Definition replace (fuel : nat) (str : bytes) (target replacement : byte) (skip : nat) :=
  replace_loop fuel str target replacement skip 0.

(** replace_reverse (30-44): [pos--] on pos = 0 wraps to npos ([None]). *)
Fixpoint replace_reverse_loop (fuel : nat) (str : bytes) (target replacement : byte) (skip : nat)
    (pos : option nat) : option bytes :=
  match fuel with
  | O => None
  | S fuel' =>
      match rfind_from target str pos with
      | None => Some str
      | Some pos =>
          match skip with
          | S skip' =>
              replace_reverse_loop fuel' str target replacement skip'
                (match pos with O => None | S p => Some p end)
          | O => replace_reverse_loop fuel' (set_nth str pos replacement) target replacement 0 (Some pos)
          end
      end
  end.
Definition replace_reverse (fuel : nat) (str : bytes) (target replacement : byte) (skip : nat) :=
  replace_reverse_loop fuel str target replacement skip None.

(** leading_pad (46-59). *)
Definition leading_pad (str : bytes) (desiredLength : nat) (padChar : byte) : bytes :=
  if length str <? desiredLength then repeat padChar (desiredLength - length str) ++ str else str.

(** padded (126-133): ostringstream with fill and width, default (right) adjustment. The text [val]
    is what [operator<<] prints for the value without width; for negative integers the default
    adjustment pads before the sign, so the value text is contiguous.  *)
Definition padded (val : bytes) (digits : nat) (fillChar : byte) : bytes :=
  repeat fillChar (digits - length val) ++ val.

(** std::string::find(const char* two characters, pos). *)
Fixpoint find2_idx (a b : byte) (s : bytes) : option nat :=
  match s with
  | x :: r => match r with
              | y :: _ => if N.eqb x a && N.eqb y b then Some 0 else option_map S (find2_idx a b r)
              | [] => None
              end
  | [] => None
  end.
Definition find2_from (a b : byte) (s : bytes) (pos : nat) : option nat :=
  option_map (fun k => pos + k) (find2_idx a b (skipn pos s)).

(** std::string::substr(pos, n). *)
Definition substr (s : bytes) (pos n : nat) : bytes := firstn n (skipn pos s).

(** c_str() seen as a C string: cut at the first NUL. *)
Fixpoint c_str (s : bytes) : bytes :=
  match s with [] => [] | x :: r => if N.eqb x 0 then [] else x :: c_str r end.

Definition DOLLAR : byte := 36%N. Definition LPAR : byte := 40%N. Definition RPAR : byte := 41%N.
Definition SLASH : byte := 47%N.

(** substituteEnvVars (70-100): loop state (idx, pidx, out); [getenv] is an oracle.
    Fuel bounds the number of iterations; [None] = out of fuel. *)
Fixpoint subst_loop (getenv : bytes -> option bytes) (fuel : nat) (s : bytes)
    (idx : option nat) (pidx : nat) (out : bytes) : option bytes :=
  match fuel with
  | O => None
  | S fuel' =>
      match idx with
      | None => Some (out ++ skipn pidx s)                                  (* 98-99 *)
      | Some idx =>
          match find_from RPAR s idx with                                    (* 76 *)
          | Some idxe =>
              let envVar := substr s (idx + 2) (idxe - idx - 2) in           (* 80 *)
              match getenv (c_str envVar) with                               (* 82 *)
              | Some envSub =>
                  subst_loop getenv fuel' s (find2_from DOLLAR LPAR s (idxe + 1)) (idxe + 1)
                             (out ++ substr s pidx (idx - pidx) ++ envSub)
              | None =>
                  subst_loop getenv fuel' s (find2_from DOLLAR LPAR s (idxe + 1)) pidx out
              end
          | None => subst_loop getenv fuel' s None pidx out                  (* 94 *)
          end
      end
  end.
Definition substituteEnvVars (getenv : bytes -> option bytes) (fuel : nat) (s : bytes) : option bytes :=
  subst_loop getenv fuel s (find2_from DOLLAR LPAR s 0) 0 [].

(** ensureTrailingBackslash (103-112). *)
Definition ensureTrailingBackslash (s : bytes) : bytes :=
  if length s =? 0 then [SLASH]
  else if N.eqb (nth (length s - 1) s 0%N) SLASH then s
  else s ++ [SLASH].

(** toStream (228-241) on elements already rendered by [operator<<]. *)
Definition toStream (elems : list bytes) (delimiter prefix postfix : bytes) : bytes :=
  prefix ++
  match elems with
  | [] => []
  | e :: r => e ++ fold_left (fun acc x => acc ++ delimiter ++ x) r []
  end ++ postfix.

(** arrToString (244-250). *)
Definition arrToString (elems : list bytes) : bytes := toStream elems (str ",") (str "[") (str "]").

(** s_tuple (169-223) with n >= 2 components: "[" t "," u ... "]". *)
Definition s_tuple (elems : list bytes) : bytes :=
  match elems with
  | [t] => t
  | t :: r => str "[" ++ t ++ concat (map (fun u => str "," ++ u) r) ++ str "]"
  | [] => []
  end.
