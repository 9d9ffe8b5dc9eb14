(** Model of sm_python/python/sm/plotCoordinateFrame.py (6-87), of sm_python/python/sm/PlotCollection.py (12-58) and of
    sm_python/include/sm/python/stl_converters.hpp (10-33).  numpy computes in exact real arithmetic here.  What matplotlib and wx do is modelled
    from their documentation: plot3D(xs, ys, zs, fmt) of a 3d axes, and plot of a 3d axes, draw one line through the points; plot of a 2d
    axes splits its arguments into groups x, y[, fmt] while at least two data arguments are followed by no format, the last group y, fmt being plotted
    over 0, 1, ... (matplotlib's _process_plot_var_args takes two arguments and a format if it comes next).  Fonts, sizes and line widths are not
    modelled. *)
From Coq Require Import Reals List Bool Arith.
From Verif Require Import LinAlg.
Import ListNotations.
Open Scope R_scope.

(** ** Coordinate frames *)
Inductive colour := Red | Green | Blue | Cycle.
(** two data values, or a format string such as 'r-' *)
Inductive parg := Data (a b : R) | Fmt (c : colour).
(** p_f = array([[0,0,0,1],[size,0,0,1],[0,size,0,1],[0,0,size,1]]).T, a matrix as its columns; p_0 = dot(T_0f, p_f) (36-37, 78-79) *)
Definition p_f (size : R) : list vec4 := [V4 0 0 0 1; V4 size 0 0 1; V4 0 size 0 1; V4 0 0 size 1].
Definition p_0 (T : mat4) (size : R) : list vec4 := map (mv4 T) (p_f size).
Definition column (M : list vec4) (j : nat) : vec4 := nth j M zero4.
(** append([p_0[:,0].T], [p_0[:,j].T], axis=0) (40-42), as rows *)
Definition two_rows (T : mat4) (size : R) (j : nat) : vec4 * vec4 := (column (p_0 T size) 0, column (p_0 T size) j).
(** X[:,k] *)
Definition slice (X : vec4 * vec4) (k : nat) : parg := Data (at4 (fst X) k) (at4 (snd X) k).
(** a line drawn on a 3d axes: colour, first and second point *)
Definition line3 : Type := (colour * vec3 * vec3)%type.
(** Axes3D.plot3D, Axes3D.plot *)
Definition plot3D (xs ys zs fmt : parg) : list line3 :=
  match xs, ys, zs, fmt with
  | Data x0 x1, Data y0 y1, Data z0 z1, Fmt c => [(c, V3 x0 y0 z0, V3 x1 y1 z1)]
  | _, _, _, _ => []
  end.
(** plotCoordinateFrame (6-45) *)
Definition plotCoordinateFrame (T : mat4) (size : R) : list line3 :=
  let X := two_rows T size 1 in let Y := two_rows T size 2 in let Z := two_rows T size 3 in
  plot3D (slice X 0) (slice X 1) (slice X 2) (Fmt Red) ++
  plot3D (slice Y 0) (slice Y 1) (slice Y 2) (Fmt Green) ++
  plot3D (slice Z 0) (slice Z 1) (slice Z 2) (Fmt Blue).
(** plot2DCoordinateFrame (48-86) on a 3d axes *)
Definition plot2D_on_3d (T : mat4) (size : R) : list line3 :=
  let X := two_rows T size 1 in let Y := two_rows T size 2 in
  plot3D (slice X 0) (slice X 1) (slice X 2) (Fmt Red) ++ plot3D (slice Y 0) (slice Y 1) (slice Y 2) (Fmt Green).
(** Axes.plot of a 2d axes: lines as colour and points *)
Definition line2 : Type := (colour * (R * R) * (R * R))%type.
Fixpoint plot2 (fuel : nat) (l : list parg) : list line2 :=
  match fuel with
  | O => []
  | S f =>
    match l with
    | [] => []
    | Data x0 x1 :: Data y0 y1 :: Fmt c :: r => (c, (x0, y0), (x1, y1)) :: plot2 f r
    | Data x0 x1 :: Data y0 y1 :: r => (Cycle, (x0, y0), (x1, y1)) :: plot2 f r
    | Data y0 y1 :: Fmt c :: r => (c, (0, y0), (1, y1)) :: plot2 f r
    | Data y0 y1 :: r => (Cycle, (0, y0), (1, y1)) :: plot2 f r
    | _ => []
    end
  end.
(** plot2DCoordinateFrame (48-86) on a 2d axes *)
Definition plot2D_on_2d (T : mat4) (size : R) : list line2 :=
  let X := two_rows T size 1 in let Y := two_rows T size 2 in
  plot2 4 [slice X 0; slice X 1; slice X 2; Fmt Red] ++ plot2 4 [slice Y 0; slice Y 1; slice Y 2; Fmt Green].

(** ** dict and OrderedDict: keys in the order in which they were inserted *)
Section Dict.
  Variables (K V : Type) (eqb : K -> K -> bool).
  (** d[k] = v *)
  Fixpoint dset (k : K) (v : V) (d : list (K * V)) : list (K * V) :=
    match d with
    | [] => [(k, v)]
    | (k', v') :: r => if eqb k k' then (k', v) :: r else (k', v') :: dset k v r
    end.
  (** d.pop(k, None) *)
  Fixpoint dpop (k : K) (d : list (K * V)) : list (K * V) :=
    match d with
    | [] => []
    | (k', v') :: r => if eqb k k' then r else (k', v') :: dpop k r
    end.
  Fixpoint dget (k : K) (d : list (K * V)) : option V :=
    match d with [] => None | (k', v') :: r => if eqb k k' then Some v' else dget k r end.

  (** PlotCollection: add_figure (38-42), delete_figure (44-48) *)
  Inductive pc_op := AddFigure (tabname : K) (fig : V) | DeleteFigure (name : K).
  Definition pc_step (d : list (K * V)) (o : pc_op) : list (K * V) :=
    match o with AddFigure n f => dset n f d | DeleteFigure n => dpop n d end.
  Definition pc_run (h : list pc_op) : list (K * V) := fold_left pc_step h [].
  (** show (50-62): no window for an empty collection; otherwise one page for each name, in the order of keys() *)
  Definition pc_show (d : list (K * V)) : option (list (K * option V)) :=
    match d with [] => None | _ => Some (map (fun n => (n, dget n d)) (map fst d)) end.

  (** stlToList (12-23) *)
  Definition stlToList (l : list V) (out : list V) : list V := fold_left (fun o x => o ++ [x]) l out.
  (** stlToDict (25-33) *)
  Definition stlToDict (l : list (K * V)) (out : list (K * V)) : list (K * V) := fold_left (fun o x => dset (fst x) (snd x) o) l out.
End Dict.
Arguments AddFigure {K V}. Arguments DeleteFigure {K V}.
