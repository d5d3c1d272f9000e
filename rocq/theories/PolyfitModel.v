(** Model of polyfitA, psdr/vandermonde.py 74-88. *)
Require Import Reals List Bool Arith.
From Verif Require Import RVec Num BasisModel.
Import ListNotations.
Local Open Scope R_scope.

(** Q as a matrix of rows (one per sample), from its columns *)
Definition rows_of (M : nat) (Q : list vec) : mat := map (fun s => map (fun q => vget q s) Q) (seq 0 M).
(** polyfitA, vandermonde.py 86-88; [lstsq] is np.linalg.lstsq(Q, fX)[0].  None: _update_vec or lstsq fails.  A zero norm in the construction is a
    division by zero in the code (NaN); the theorems say when it occurs. *)
Definition polyfitA (lstsq : mat -> vec -> option vec) (X : mat) (p n : nat) (fX : vec) : option (vec * list (vec * R)) :=
  match vandermonde_arnoldi X p n with
  | Some (Q, H) => match lstsq (rows_of (length X) Q) fX with Some d => Some (d, H) | None => None end
  | None => None
  end.
