(** Model of save_contour (psdr/pgf.py 54-107): contours written to a text file. *)
Require Import Reals List Bool Arith.
Import ListNotations.
Local Open Scope R_scope.

Notation pt := (R * R)%type.
(** what path.iter_segments yields (matplotlib): a code with its vertices; a curve comes with two or three vertices in one array, a closing segment with one that is not used *)
Inductive seg := Move (p : pt) | Line (p : pt) | Close (p : pt) | Curve.
(** a line of the file has two numbers; [raised]: an exception, the lines written before it stay in the file *)
Inductive exc := ValueErr | IndexErr | NameErr | NotImpl.
Record out := mkOut { lines : list (R * R); raised : option exc }.
(** write_path_matlab, pgf.py 61-66: [f] is printing with '%15.15e'; zip(x_vec, y_vec) are the points (both lists always grow together) *)
Definition write_matlab (f : R -> R) (ps : list pt) (z : R) : out := mkOut ((f z, INR (length ps)) :: map (fun p => (f (fst p), f (snd p))) ps) None.
(** write_path_prepared, pgf.py 68-70: x0 and y0 are not defined *)
Definition write_prepared (ps : list pt) (z : R) : out := mkOut [] (Some NameErr).
Definition andthen (a b : out) : out := match raised a with Some _ => a | None => mkOut (lines a ++ lines b) (raised b) end.
(** the loop over the segments of a path and the last write, pgf.py 83-107; [acc] is x_vec, y_vec *)
Fixpoint path_loop (w : list pt -> R -> out) (z : R) (acc : list pt) (ss : list seg) : out :=
  match ss with
  | [] => w acc z
  | Move p :: ss' => if Nat.eqb (length acc) 0 then path_loop w z (acc ++ [p]) ss' else andthen (w acc z) (path_loop w z [p] ss')
  | Line p :: ss' => path_loop w z (acc ++ [p]) ss'
  | Close _ :: ss' => match acc with [] => mkOut [] (Some IndexErr) | q :: _ => path_loop w z (acc ++ [q]) ss' end
  | Curve :: _ => mkOut [] (Some ValueErr)
  end.
(** zip(cs.collections, cs.levels) and the paths of each, pgf.py 79-82 *)
Fixpoint all_paths (w : list pt -> R -> out) (z : R) (paths : list (list seg)) : out :=
  match paths with [] => mkOut [] None | p :: ps => andthen (path_loop w z [] p) (all_paths w z ps) end.
Fixpoint all_levels (w : list pt -> R -> out) (cs : list (list (list seg) * R)) : out :=
  match cs with [] => mkOut [] None | (paths, z) :: cs' => andthen (all_paths w z paths) (all_levels w cs') end.
Inductive fmt := Matlab | Prepared | OtherFmt.
Definition save_contour (f : R -> R) (m : fmt) (collections : list (list (list seg))) (levels : list R) : out :=
  match m with
  | Matlab => all_levels (write_matlab f) (combine collections levels)
  | Prepared => all_levels write_prepared (combine collections levels)
  | OtherFmt => mkOut [] (Some NotImpl)
  end.
