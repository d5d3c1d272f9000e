(** PolynomialRidgeApproximation.fit_fixed_subspace, polyridge.py 299-305. *)
Require Import Reals List Bool Arith.
From Verif Require Import RVec BasisModel RidgeModel.
Import ListNotations.
Local Open Scope R_scope.

(** polyridge.py 299-305: two assertions on the shape of U (303, 304), then _finish (305, model [finish]).  [us]: the columns of
    U, [m] = X.shape[1], [n] = subspace_dimension; None: one of the assertions fails.  Simplified: the coefficients and the basis
    are those of the oracle [fitc] (_fit_coef), [svd1] gives the columns of the left factor of the thin SVD. *)
Definition fit_fixed (fitc : list vec -> tbasis * vec) (svd1 : list vec -> list vec) (m n : nat) (rotate : bool) (X : mat) (us : list vec) : option (list vec * (tbasis * vec)) :=
  if forallb (fun u => Nat.eqb (length u) m) us && Nat.eqb (length us) n then Some (finish fitc svd1 m rotate X us) else None.
