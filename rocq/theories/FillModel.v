(** Model of fill_distance_estimate, psdr/geometry/fill.py 31-88. *)
Require Import Reals List Bool Arith.
From Verif Require Import RVec Num DomModel DomMoreModel LipModel SampModel GeoModel.
Import ListNotations.
Local Open Scope R_scope.

(** voronoi_vertex_sample with randomize = False, vertex.py 211-213: the loop runs over range(m - A_eq.shape[0]) and breaks at k >= Lrank *)
Definition fe_steps (m lrank : nat) (Aeq : mat) : nat := Nat.min (m - length Aeq) lrank.
(** fill_distance_estimate, fill.py 74-88.  [X0] is initial_sample or the argument, [lrank] is np.linalg.matrix_rank(L), [L] the argument (76-77: the
    identity if it is None); cdist(Xcan, Xhat, L) has the entries Ldist (cdist.py 12-16).  None: np.max of an empty array (no starting points).
    Simplified: the rows of X0 do not interact in vertex.py 215-314, so each is walked on its own. *)
Definition fill_estimate (m lrank : nat) (L A : mat) (b : vec) (Aeq Xhat : mat) (qr : mat -> mat) (ords : vec -> list nat) (X0 : mat) : option R :=
  let Xcan := map (vv_walk (fe_steps m lrank Aeq) 0 m L A b Aeq Xhat qr false ords (fun _ => vzero m)) X0 in
  match Xcan with
  | [] => None
  | _ => Some (vmax (map (fun x => vmin (map (fun xh => Ldist L x xh) Xhat)) Xcan))
  end.
