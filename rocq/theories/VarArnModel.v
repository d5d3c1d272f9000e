(** Model of the Arnoldi branch of the variable projection, polyridge.py 448-505 with basis_name = 'arnoldi'.  A matrix U (m x n) is
    given by its columns [us].  Real arithmetic is exact; a zero norm in the Arnoldi loop is a division by zero (NaN) in the code, and
    the theorems say when it occurs. *)
Require Import Reals List Bool Arith.
From Verif Require Import RVec Num Sums DomModel DomMoreModel BasisModel MatLib LipModel PolyfitModel RidgeModel.
Import ListNotations.
Local Open Scope R_scope.

(** _varpro_residual, polyridge.py 448-461: basis rebuilt at Y = (U.T @ X.T).T, V = self.basis.V(Y) = Q (basis.py 513-517: Y equals
    the points of the construction), c = V.T @ fX, r = fX - V.dot(c).  None: _update_vec raised. *)
Definition va_residual (p : nat) (us : list vec) (X : mat) (f : vec) : option vec :=
  match arnoldi (map (mv us) X) (index_set p (length us)) with
  | Some (Q, _) => Some (vsub f (mv (rows_of (length X) Q) (mv Q f)))
  | None => None
  end.
(** DV[:,:,ell] at the construction points, basis.py 520-544: V = self.Q; one row per sample *)
Definition va_DV (idx : list (list nat)) (Q : list vec) (Rs : list (vec * R)) (Y : mat) (ell : nat) : option mat :=
  all_some (map (fun s => arnoldi_DV idx Rs (nth s Y []) (map (fun q => vget q s) Q) ell) (seq 0 (length Y))).
(** DVDU_k = X[:,k,None]*DV[:,:,ell], polyridge.py 490; [D]: DV[:,:,ell] *)
Definition va_dvdu (X D : mat) (k : nat) : mat := map (fun s => vscale (vget (nth s X []) k) (nth s D [])) (seq 0 (length X)).
(** np.eye *)
Definition eye (N : nat) : mat := map (unit_row_ N) (seq 0 N).
(** _varpro_jacobian, polyridge.py 463-505: Y = np.copy(V), s = np.ones, ZT = np.eye.  Columns in the order k*n + l. *)
Definition va_jac (p m : nat) (us : list vec) (X : mat) (f : vec) : option (list vec) :=
  let n := length us in let Y := map (mv us) X in let idx := index_set p n in
  match arnoldi Y idx with
  | Some (Q, Rs) =>
      let c := mv Q f in let r := vsub f (mv (rows_of (length X) Q) c) in
      match all_some (map (va_DV idx Q Rs Y) (seq 0 n)) with
      | Some DV => Some (map (fun i => vp_col (length X) (length idx) Q (repeat 1 (length idx)) (eye (length idx)) (va_dvdu X (nth (i mod n) DV []) (i / n)) c r) (seq 0 (m * n)))
      | None => None
      end
  | None => None
  end.
