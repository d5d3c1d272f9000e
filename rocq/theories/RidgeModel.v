(** Model of psdr/polyridge.py and psdr/polyridge_vec.py.  A matrix U (m x n) is given by its columns [us]; U^T x is [mv us x].
    Real arithmetic is exact. *)
Require Import Reals List Bool Arith ZArith.
From Verif Require Import RVec Num Sums DomModel DomMoreModel BasisModel MatLib LipModel SubModel.
Import ListNotations.
Local Open Scope R_scope.

(* ---------------- PolynomialRidgeFunction, polyridge.py 23-91, at one point ---------------- *)
(** eval, polyridge.py 33-52 *)
Definition ridge_eval (B : tbasis) (c : vec) (us : list vec) (x : vec) : R := poly_eval B c (mv us x).
(** grad, polyridge.py 54-70: Df.dot(U.T) *)
Definition ridge_grad (B : tbasis) (c : vec) (m : nat) (us : list vec) (x : vec) : vec := lincomb m us (poly_grad B c (mv us x)).
(** hessian, polyridge.py 72-87: np.tensordot(np.tensordot(DDf, U, axes = (2,1)), U, axes = (1,1)) *)
Definition ridge_hess (B : tbasis) (c : vec) (m : nat) (us : list vec) (x : vec) : mat :=
  let H := poly_hess B c (mv us x) in let n := length us in
  map (fun j => map (fun i => rsum n (fun k => rsum n (fun l => vget (nth k H []) l * vget (nth l us []) j) * vget (nth k us []) i)) (seq 0 m)) (seq 0 m).

(* ---------------- number of parameters, polyridge.py 247-254 and 326-335 ---------------- *)
(** subspace_dimension after __init__ *)
Definition pr_dim (degree dim : nat) : nat := if Nat.eqb degree 0 then O else if Nat.eqb degree 1 && Nat.ltb 1 dim then 1%nat else dim.
(** n_param; fit raises UnderdeterminedException when there are fewer samples *)
Definition pr_n_param (m n d : nat) : Z := (Z.of_nat (choose (n + d) d) + (Z.of_nat (m * n) - Z.of_nat ((n * (n + 1)) / 2)))%Z.
Definition pr_enough (m n d M : nat) : bool := negb (Z.ltb (Z.of_nat M) (pr_n_param m n d)).

(* ---------------- orth and the trajectories ---------------- *)
(** orth, polyridge.py 103-107; [qr us]: columns of Q and of R of np.linalg.qr(U, mode = 'reduced') (contract qr_post) *)
Definition orth (qr : list vec -> list vec * mat) (us : list vec) : list vec :=
  let (q, r) := qr us in scale_cols (map (fun j => sgn (vget (nth j r []) j)) (seq 0 (length q))) q.
(** _grassmann_trajectory, polyridge.py 507-514; [svd ds]: columns of Y, s, rows of ZT for the step Delta *)
Definition pr_traj (qr : list vec -> list vec * mat) (svd : list vec -> list vec * vec * list vec) (m : nat) (us ds : list vec) (t : R) : list vec :=
  let '(ys, s, zs) := svd ds in orth qr (geo_cols m us ys s zs t).
(** _grassmann_trajectory, polyridge_vec.py 16-20 *)
Definition pv_traj (svd : list vec -> list vec * vec * list vec) (m : nat) (us ds : list vec) (t : R) : list vec :=
  let '(ys, s, zs) := svd ds in geo_cols m us ys s zs t.
(** Delta - U.dot(U.T.dot(Delta)), polyridge.py 607 *)
Definition horiz (m : nat) (us ds : list vec) : list vec := map (fun d => vsub d (lincomb m us (mv us d))) ds.
(** the new subspace in _trajectory, polyridge.py 590-619 (the coefficients are refitted at line 617) *)
Definition pr_alt_traj (qr : list vec -> list vec * mat) (svd : list vec -> list vec * vec * list vec) (m : nat) (us ds : list vec) (t : R) : list vec :=
  let us' := orth qr us in let '(ys, s, zs) := svd (horiz m us' ds) in geo_cols m us' ys s zs t.

(* ---------------- flattening ---------------- *)
(** U.flatten(): entry k*n + l is U[k,l] *)
Definition flat (m : nat) (us : list vec) : vec :=
  let n := length us in map (fun i => vget (nth (i mod n) us []) (i / n)) (seq 0 (m * n)).
(** v.reshape(m, n), as columns *)
Definition unflat (m n : nat) (v : vec) : list vec := map (fun l => map (fun k => vget v (k * n + l)) (seq 0 m)) (seq 0 n).

(* ---------------- Gauss-Newton step, polyridge.py 519-524 and polyridge_vec.py 22-27 ---------------- *)
(** number of singular values kept by [:-n**2]; for n = 0 the slice is [:0] *)
Definition gn_keep (n : nat) (s : vec) : nat := if Nat.eqb n 0 then O else (length s - n * n)%nat.
Definition gn_solve (N n : nat) (ys : list vec) (s : vec) (zs : list vec) (r : vec) : vec :=
  vscale (-1) (lincomb N (firstn (gn_keep n s) zs) (map (fun i => / vget s i * dot (nth i ys []) r) (seq 0 (gn_keep n s)))).

(* ---------------- variable projection, polyridge.py 448-505 and polyridge_vec.py 30-89 ---------------- *)
(** V at the projected samples *)
Definition vp_V (B : tbasis) (us : list vec) (X : mat) : mat := map (fun x => Vrow B (mv us x)) X.
(** r = fX - V.dot(c) *)
Definition vp_residual (V : mat) (f c : vec) : vec := vsub f (mv V c).
(** DVDU_k = X[:,k,None]*DV[:,:,ell] *)
Definition vp_dv (B : tbasis) (us : list vec) (X : mat) (k l : nat) : mat := map (fun x => map (fun row => vget x k * vget row l) (DVrow B (mv us x))) X.
(** a - Y Y^T a and Y diag(1/s) ZT b; Y by columns, zs: rows of ZT *)
Definition vp_proj (M : nat) (ys : list vec) (a : vec) : vec := vsub a (lincomb M ys (mv ys a)).
Definition vp_pinvT (M : nat) (ys : list vec) (s : vec) (zs : list vec) (b : vec) : vec :=
  lincomb M ys (map (fun p => / vget s p * dot (nth p zs []) b) (seq 0 (length ys))).
(** one column of the Jacobian, for the derivative [dV] of V in one coordinate of U *)
Definition vp_col (M N : nat) (ys : list vec) (s : vec) (zs : list vec) (dV : mat) (c r : vec) : vec :=
  vscale (-1) (vadd (vp_proj M ys (mv dV c)) (vp_pinvT M ys s zs (mtv N dV r))).
(** the Jacobian, J.reshape(M, -1): column k*n + l *)
Definition vp_jac (B : tbasis) (us : list vec) (m : nat) (X : mat) (ys : list vec) (s : vec) (zs : list vec) (c r : vec) : list vec :=
  let n := length us in map (fun i => vp_col (length X) (length (indices B)) ys s zs (vp_dv B us X (i / n) (i mod n)) c r) (seq 0 (m * n)).

(* ---------------- residual and Jacobian in (U, c), polyridge.py 544-587 ---------------- *)
Definition pr_residual (B : tbasis) (us : list vec) (X : mat) (f c : vec) : vec := vsub (mv (vp_V B us X) c) f.
(** columns: first those of U[k,l] in the order k*n + l, then those of V *)
Definition pr_jac (B : tbasis) (us : list vec) (m : nat) (X : mat) (c : vec) : list vec :=
  let n := length us in
  map (fun i => map (fun x => vget x (i / n) * dot (map (fun row => vget row (i mod n)) (DVrow B (mv us x))) c) X) (seq 0 (m * n)) ++
  map (fun j => col (vp_V B us X) j) (seq 0 (length (indices B))).
(** search_constraints, polyridge.py 647-653: constraint k is U^T p[k*m : (k+1)*m] = 0 *)
Definition slice (a len : nat) (p : vec) : vec := firstn len (skipn a p).
Definition pr_constraints (m : nat) (us : list vec) (p : vec) : Prop :=
  forall k, (k < length us)%nat -> forall u, In u us -> dot u (slice (k * m) m p) = 0.

(* ---------------- bound constrained fits, polyridge.py 151-175, 364-416 ---------------- *)
(** bound_fit(A, b): a minimizer of |A x - b| under A x - b >= 0, when the solver is exact; N = A.shape[1] *)
Definition bound_fit_returns (p : fnorm) (N : nat) (A : mat) (b x : vec) : Prop :=
  length x = N /\ fit_con Upper (fit_residual A b x) /\
  forall y, length y = N -> fit_con Upper (fit_residual A b y) -> fit_obj p (fit_residual A b x) <= fit_obj p (fit_residual A b y).
Definition free_fit_returns (p : fnorm) (N : nat) (A : mat) (b x : vec) : Prop :=
  length x = N /\ forall y, length y = N -> fit_obj p (fit_residual A b x) <= fit_obj p (fit_residual A b y).
Definition mneg (A : mat) : mat := map (vscale (-1)) A.
(** _fit_coef, polyridge.py 396-416 *)
Definition coef_returns (p : fnorm) (bd : fbound) (N : nat) (V : mat) (f c : vec) : Prop :=
  match bd with
  | NoBound => free_fit_returns p N V f c
  | Lower => bound_fit_returns p N (mneg V) (vscale (-1) f) c
  | Upper => bound_fit_returns p N V f c
  end.
(** _fit_affine, polyridge.py 364-394.  The samples are normalized to the box of their ranges *)
Definition aff_lb (m : nat) (X : mat) : list num := map (fun k => Fin (vmin (col X k))) (seq 0 m).
Definition aff_ub (m : nat) (X : mat) : list num := map (fun k => Fin (vmax (col X k))) (seq 0 m).
Definition aff_XX (m : nat) (X : mat) : mat := map (fun x => normalize (aff_lb m X) (aff_ub m X) x ++ [1]) X.
(** constant data divide by zero (NaN in the code); theorems use non-constant data *)
Definition aff_f (f : vec) : vec := map (fun a => (a - vmin f) / (vmax f - vmin f)) f.
Definition aff_b_returns (p : fnorm) (bd : fbound) (m : nat) (X : mat) (f b : vec) : Prop :=
  match bd with
  | NoBound => free_fit_returns p (m + 1) (aff_XX m X) (aff_f f) b
  | Lower => bound_fit_returns p (m + 1) (aff_XX m X) (aff_f f) b
  | Upper => bound_fit_returns p (m + 1) (mneg (aff_XX m X)) (vscale (-1) (aff_f f)) b
  end.
Definition aff_U (m : nat) (X : mat) (b : vec) : vec :=
  let u := mv (diag (nslopes (aff_lb m X) (aff_ub m X))) (removelast b) in vscale (/ norm2 u) u.

(* ---------------- _finish, polyridge.py 418-442 ---------------- *)
(** [fitc us]: basis and coefficients set by _fit_coef; [svd1]: columns of the left factor of the thin SVD.  Y is computed
    once from the U passed in. *)
Definition finish (fitc : list vec -> tbasis * vec) (svd1 : list vec -> list vec) (m : nat) (rotate : bool) (X : mat) (us : list vec) : list vec * (tbasis * vec) :=
  let Y := map (mv us) X in let n := length us in
  let us1 := if Nat.ltb 1 n && rotate then map (lincomb m us) (svd1 (map (poly_grad (fst (fitc us)) (snd (fitc us))) Y)) else us in
  let us2 := if rotate then
               scale_cols (map (fun k => sgn (mean (col (map (poly_grad (fst (fitc us1)) (snd (fitc us1))) Y) k))) (seq 0 n)) us1
             else us1 in
  (us2, fitc us2).

(* ---------------- polynomial_ridge_approximation with a fixed subspace, polyridge_vec.py 92-183 ---------------- *)
(** UU = np.hstack([Uf, Uc @ U]) *)
Definition pv_join (m : nat) (uf uc us : list vec) : list vec := uf ++ map (lincomb m uc) us.
(** _varpro_jacobian_fixed: [J] the rows of the full Jacobian, entry j*(nf+n) + k; result entry l*n + k *)
Definition pv_jac_row (m nf n : nat) (uc : list vec) (J : vec) : vec :=
  map (fun i => rsum m (fun j => vget J (j * (nf + n) + (nf + i mod n)) * vget (nth (i / n) uc []) j)) (seq 0 (length uc * n)).
(** np.atleast_2d(fX).T for one-dimensional fX: the rows passed on to initialize_subspace as values *)
Definition pv_values (f : vec) : list vec := map (fun a => [a]) f.
