(** Models: conversion of hulls to inequalities, equality basis of hulls, constraints handed to the convex solvers. *)
Require Import Reals List Bool Arith.
From Verif Require Import RVec Num DomModel DomMoreModel GeoModel SampModel.
Import ListNotations.
Local Open Scope R_scope.

(** np.mean(X, axis = 0), convexhull.py 40 and 313 *)
Definition row_mean (m : nat) (X : mat) : vec := map (fun i => vsum (col X i) / INR (length X)) (seq 0 m).
(** Xdiff, convexhull.py 41 and 314 *)
Definition centred (m : nat) (X : mat) : mat := map (fun x => vsub x (row_mean m X)) X.
(** ~np.isclose(s, 0), convexhull.py 43 and 317 *)
Definition big (a : R) : bool := negb (np_close a 0).
(** VT[~I]: the right singular vectors whose singular value is not close to zero *)
Definition big_rows (s : vec) (VT : mat) : mat := map snd (filter (fun p => big (fst p)) (combine s VT)).
(** what _hull_to_linineq returns: A, b, A_eq, b_eq, vertices.  A = b = None is read as no rows. *)
Record hull_data := mkHD { hd_A : mat; hd_b : vec; hd_Aeq : mat; hd_beq : vec; hd_vert : mat }.

(** [_hull_to_linineq], convexhull.py 28-66.  [svd] returns (s, VT) of scipy.linalg.svd(Xdiff, full_matrices = False), as
    the singular values and the rows of VT; [qr] the columns of the full Q factor of the matrix with the given columns;
    [qhull Y] the equations of scipy.spatial.ConvexHull as pairs (equations[:, :-1], -equations[:, -1]) and the indices of
    its vertices.  None: an exception (no coordinate changes: the product of a (2,1) and a (0,m) array, line 59).
    The means of line 64 are those of the columns of X @ Qperp. *)
Definition hull_to_linineq (svd : mat -> vec * mat) (qr : mat -> mat) (qhull : mat -> list (vec * R) * list nat) (m : nat) (X : mat) : option hull_data :=
  match X with
  | [x] => Some (mkHD [] [] (diag (repeat 1 m)) x [x])
  | _ =>
      let '(s, VT) := svd (centred m X) in
      let V := big_rows s VT in
      let Q := qr V in
      let d := length V in
      let Qpar := firstn d Q in
      let Qperp := skipn d Q in
      let Y := map (mv Qpar) X in
      let beq := map (fun p => vsum (map (dot p) X) / INR (length X)) Qperp in
      if Nat.ltb 1 d then
        let '(eqs, J) := qhull Y in
        Some (mkHD (map (fun e => lincomb m Qpar (fst e)) eqs) (map snd eqs) Qperp beq (map (fun j => nth j X []) J))
      else match Qpar with
           | [q] => let y := map (dot q) X in
               Some (mkHD [vscale 1 q; vscale (-1) q] [vmax y; - vmin y] Qperp beq [nth (argmax y) X []; nth (argmin_idx y) X []])
           | _ => None
           end
  end.
(** [to_linineq], convexhull.py 186-199: the constraints of the hull and, by add_constraints, those of the domain except the bounds *)
Definition to_linineq (svd : mat -> vec * mat) (qr : mat -> mat) (qhull : mat -> list (vec * R) * list nat) (h : hull) : option dom :=
  let m := dim (hcon h) in let c := hcon h in
  match hull_to_linineq svd qr qhull m (hX h) with
  | Some r => Some (add_constraints (mkDom LinQuad m (repeat NInf m) (repeat PInf m) (hd_A r) (hd_b r) (hd_Aeq r) (hd_beq r) [])
                      (mkDom LinQuad m (repeat NInf m) (repeat PInf m) (dA c) (db c) (dAeq c) (dbeq c) (quads c)))
  | None => None
  end.

(** [_A_eq_basis] of a hull, convexhull.py 305-327; [orth] returns the columns of scipy.linalg.orth of the matrix with the given columns *)
Definition hull_eq_basis (svd : mat -> vec * mat) (qr orth : mat -> mat) (m : nat) (Aeq X : mat) : mat :=
  let Qeq := match Aeq with [] => [] | _ => orth Aeq end in
  let '(s, VT) := svd (centred m X) in
  if existsb (fun a => np_close a 0) s then
    let V := big_rows s VT in orth (Qeq ++ skipn (length V) (qr V))
  else Qeq.

(** [_build_constraints] of a LinQuadDomain, linquad.py 296-321: x satisfies the list of constraints.  Non finite bounds are left
    out; the branches of 315-318 coincide; a matrix L without rows gives no constraint. *)
Definition build_lin (d : dom) (x : vec) : Prop :=
  (forall i v, nth_error (lb d) i = Some (Fin v) -> v <= vget x i) /\
  (forall i v, nth_error (ub d) i = Some (Fin v) -> vget x i <= v) /\
  (dA d <> [] -> forall k, (k < length (dA d))%nat -> vget (mv (dA d) x) k <= vget (db d) k) /\
  (dAeq d <> [] -> forall k, (k < length (dAeq d))%nat -> vget (mv (dAeq d) x) k = vget (dbeq d) k) /\
  (forall q, In q (quads d) -> qL q <> [] -> norm2 (vsub (mv (qL q) x) (mv (qL q) (qy q))) <= qrho q).
(** [_build_constraints] of a ConvexHullDomain, convexhull.py 248-253.  None: alpha @ self._X.T is not defined (alpha has one entry for
    each point, self._X.T one row for each coordinate), so cvxpy raises. *)
Definition build_hull (h : hull) : option (vec -> Prop) :=
  let n := length (hX h) in
  if Nat.eqb n (dim (hcon h)) then
    Some (fun x => (exists al, length al = n /\ x = lincomb n (map (fun i => col (hX h) i) (seq 0 n)) al /\ Forall (fun a => 0 <= a) al /\ vsum al = 1) /\ build_lin (hcon h) x)
  else None.
(** [_build_constraints] of a TensorProductDomain, tensor.py 119-123: those of the factors on the slices; [bs] are the lengths and
    constraints of the factors *)
Fixpoint build_tensor (bs : list (nat * (vec -> Prop))) (x : vec) : Prop :=
  match bs with [] => True | (k, c) :: r => c (firstn k x) /\ build_tensor r (skipn k x) end.
