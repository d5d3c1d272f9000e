(** Model of LipschitzMatrix.shadow_uncertainty, psdr/lipschitz.py 526-582 (without the plot). *)
Require Import Reals List Bool Arith.
From Verif Require Import RVec Num DomMoreModel LipModel.
Import ListNotations.
Local Open Scope R_scope.

(** the interior points, lipschitz.py 570-572: one uncertainty_domain for each y; None: one of them raises *)
Fixpoint su_interior (slice : R -> option (R * R)) (ys : vec) : option (list (num * num)) :=
  match ys with
  | [] => Some []
  | y :: ys' => match slice y, su_interior slice ys' with Some (lb, ub), Some r => Some ((Fin lb, Fin ub) :: r) | _, _ => None end
  end.
(** shadow_uncertainty, lipschitz.py 540-572: the values [ys] and the pairs (lbs[i], ubs[i]), which are then plotted or written.
    [u] is U.flatten() or the first column of self.U (540-543); [corner] is domain.corner; [starts y] are the starting points of uncertainty_domain on
    the domain with the constraint u.x = y added (571: maximin_coffeehouse and unique_points), [mmx y f x0] is psdr.minimax on that domain; [eps] is
    self.epsilon; D the pairs (row of X, value).  The flip is 552-554.  The endpoints are set by indices 0 and -1 (562-563): with ngrid = 1 the second
    assignment overwrites the first, with ngrid = 0 the first raises IndexError (None). *)
Definition shadow_unc (corner : vec -> vec) (starts : R -> mat) (mmx : R -> (vec -> vec) -> vec -> vec) (L : mat) (eps : option R) (D : list (vec * R)) (u : vec) (ngrid : nat)
  : option (vec * list (num * num)) :=
  let c1 := corner u in let e1 := dot u c1 in
  let c2 := corner (vscale (-1) u) in let e2 := dot u c2 in
  let '(e1, e2, c1, c2) := if Rltb e2 e1 then (e2, e1, c2, c1) else (e1, e2, c1, c2) in
  let ys := linspace e1 e2 ngrid in
  match ngrid with
  | O => None
  | S O => Some (ys, [unc1 L eps D c2])
  | S (S n) => match su_interior (fun y => unc_domain (mmx y) L D (starts y)) (firstn n (tl ys)) with
               | Some r => Some (ys, unc1 L eps D c1 :: r ++ [unc1 L eps D c2])
               | None => None
               end
  end.
