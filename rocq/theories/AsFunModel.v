(** Model of ActiveSubspace.fit_function, psdr/subspace.py 342-354. *)
Require Import Reals List Bool Arith.
From Verif Require Import RVec Num DomModel DomMoreModel SubModel.
Import ListNotations.
Local Open Scope R_scope.

(** quadrature_rule with method 'auto', euclidean.py 714-799.  [pt] = is_point, [unb] = is_unbounded, [sample] the draws of sample and [vol] the
    result of volume.  Left out: the NotImplementedError for truncated normal domains (715-718).  None: the refinement loop did not end. *)
Definition quadrature_rule (fuel : nat) (d : dom) (pt unb : bool) (tol : R) (rules : nat -> list (vec * vec)) (sample : nat -> list vec) (vol : R) (N : nat)
    : option (list (vec * R)) :=
  if pt then Some (combine (sample 1%nat) [1])
  else let q := quad_q N (dim d) in
       if (Nat.ltb 1 q && negb unb && Nat.eqb (length (dAeq d)) 0)%bool then quadrature_gauss fuel d tol rules N q
       else Some (combine (sample N) (mc_weights N vol)).
(** fit_function, subspace.py 352-354: fit on the gradients at the points of the rule with the weights of the rule; fun.grad on the stack of points is
    the gradient of each point (C19) *)
Definition as_fit_function (svd : list vec -> list vec * vec) (m : nat) (grad : vec -> vec) (rule : option (list (vec * R))) : option (list vec * vec * mat) :=
  match rule with
  | Some res => Some (as_fit svd m (map (fun pw => grad (fst pw)) res) (Some (map snd res)))
  | None => None
  end.
(** the two for a BoxDomain: is_point and is_unbounded of box.py 41-55 on fresh caches, [ptol] the tolerance of is_point (box.py 45) *)
Definition box_fit_function (svd : list vec -> list vec * vec) (fuel : nat) (l u : vec) (ptol tol : R) (rules : nat -> list (vec * vec)) (sample : nat -> list vec)
    (vol : R) (N : nat) (grad : vec -> vec) : option (list vec * vec * mat) :=
  let d := mkDom Box (length l) (map Fin l) (map Fin u) [] [] [] [] [] in
  as_fit_function svd (length l) grad
    (quadrature_rule fuel d (all_close (map Fin l) (map Fin u) ptol) (any_inf (map Fin l) (map Fin u)) tol rules sample vol N).
