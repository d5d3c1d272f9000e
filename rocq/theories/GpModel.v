(** Model of psdr/gp.py (GaussianProcess). *)
Require Import Reals List Bool Arith.
From Verif Require Import RVec Num Sums DomModel DomMoreModel BasisModel MatLib LipModel GrassLib SubModel.
Import ListNotations.
Local Open Scope R_scope.

(* ---------------- structure of L, gp.py 139-171, 289-305 ---------------- *)
(** 'const', 'scalar_mult' with Lfixed, 'diag', 'tril'; [expm] is scipy.linalg.expm *)
Inductive gstruct := GConst | GMult (L0 : mat) | GDiag | GTril (expm : mat -> mat).
Definition eye (m : nat) : mat := diag (repeat 1 m).
(** position of (i, j), j <= i, in np.tril_indices *)
Definition tril_pos (i j : nat) : nat := i * (i + 1) / 2 + j.
(** L[self.tril_flat] = ell *)
Definition tril_mat (m : nat) (ell : vec) : mat := map (fun i => map (fun j => if Nat.leb j i then vget ell (tril_pos i j) else 0) (seq 0 m)) (seq 0 m).
(** _make_L, gp.py 146-171 *)
Definition make_L (st : gstruct) (m : nat) (ell : vec) : mat :=
  match st with
  | GConst => mscale (exp (vget ell 0)) (eye m)
  | GMult L0 => mscale (exp (vget ell 0)) L0
  | GDiag => diag (map exp ell)
  | GTril expm => expm (tril_mat m ell)
  end.
(** ell0 in fit, gp.py 331-343 (two-dimensional L0) *)
Definition gp_ell0 (st : gstruct) (m : nat) (L0 : mat) : vec :=
  match st with
  | GConst | GMult _ => [mget L0 0 0]
  | GDiag => map (fun i => mget L0 i i) (seq 0 m)
  | GTril _ => concat (map (fun i => map (fun j => mget L0 i j) (seq 0 (S i))) (seq 0 m))
  end.

(* ---------------- kernel, gp.py 183-189 ---------------- *)
(** squared distance of L x and L z, and exp(-0.5 d) *)
Definition gk_d (L : mat) (x z : vec) : R := norm2sq (vsub (mv L x) (mv L z)).
Definition gk (L : mat) (x z : vec) : R := exp (- / 2 * gk_d L x z).
Definition gp_K (L : mat) (X : mat) : mat := map (fun x => map (gk L x) X) X.
(** K + nugget*np.eye(M) *)
Definition gp_Kt (tau : R) (K : mat) : mat := madd K (mscale tau (eye (length K))).

(* ---------------- weights, gp.py 191-207 ---------------- *)
(** rows of the Vandermonde matrix of the trend; degree None gives M x 0 *)
Definition gp_v (B : option tbasis) (x : vec) : vec := match B with Some B => Vrow B x | None => [] end.
Definition gp_n (B : option tbasis) : nat := match B with Some B => length (indices B) | None => O end.
(** A = [[K + nugget I, V], [V^T, 0]]; N the number of columns of V *)
Definition gp_A (Kt V : mat) (N : nat) : mat := zipw (@app R) Kt V ++ map (fun j => col V j ++ vzero N) (seq 0 N).
(** x = ev[:,I] (1/ew[I]) ev[:,I]^T b with I = |ew| > tol.  Dropped eigenvectors get the coefficient zero. *)
Definition eig_solve (n : nat) (e : vec * list vec) (tol : R) (b : vec) : vec :=
  lincomb n (snd e) (map (fun k => if Rltb tol (Rabs (vget (fst e) k)) then / vget (fst e) k * dot (nth k (snd e) []) b else 0) (seq 0 n)).
(** (alpha, beta) of _log_marginal_likelihood(return_alpha_beta = True) for the distance matrix L *)
Definition gp_weights (eigh : mat -> vec * list vec) (tol tau : R) (B : option tbasis) (X : mat) (y : vec) (L : mat) : vec * vec :=
  let N := gp_n B in let M := length X in
  let x := eig_solve (M + N) (eigh (gp_A (gp_Kt tau (gp_K L X)) (map (gp_v B) X) N)) tol (y ++ vzero N) in
  (firstn M x, skipn M x).

(* ---------------- objective and gradient, gp.py 212-274 ---------------- *)
(** [ew] the eigenvalues of K + nugget I *)
Definition gp_obj (y alpha ew : vec) : R := / 2 * dot y alpha + / 2 * vsum (map ln ew).
(** dK[:,:,k] for 'const' and 'scalar_mult' *)
Definition gp_dK_scalar (L : mat) (X : mat) : mat := map (fun x => map (fun z => - (gk_d L x z * gk L x z)) X) X.
(** dK[:,:,k] for 'diag' *)
Definition gp_dK_diag (L : mat) (X : mat) (k : nat) : mat :=
  map (fun x => map (fun z => (0 - (vget (mv L x) k - vget (mv L z) k) * (vget (mv L x) k - vget (mv L z) k)) * gk L x z) X) X.
(** dK[:,:,k] for 'tril'; [dL] stands for the complex step derivative of expm (exact derivative in the theorems) *)
Definition gp_dK_tril (L dL : mat) (X : mat) : mat :=
  map (fun x => map (fun z => (0 - dot (vsub (mv L x) (mv L z)) (vsub (mv dL x) (mv dL z))) * gk L x z) X) X.
(** grad[k] = 0.5 trace(ev (ev^T dK / ew)) - 0.5 alpha^T dK alpha; [e] the decomposition of K + nugget I *)
Definition gp_grad (e : vec * list vec) (alpha : vec) (dK : mat) : R :=
  let M := length dK in
  / 2 * rsum M (fun i => rsum M (fun k => vget (nth k (snd e) []) i * (dot (nth k (snd e) []) (col dK i) / vget (fst e) k)))
  - / 2 * dot alpha (map (fun j => dot alpha (col dK j)) (seq 0 M)).

(* ---------------- eval, gp.py 366-389 ---------------- *)
Definition gp_eval (B : option tbasis) (X : mat) (L : mat) (w : vec * vec) (x : vec) : R := dot (map (gk L x) X) (fst w) + dot (gp_v B x) (snd w).
(** cov: [e] = eigh(KK), kept ew > tol; negative values are set to zero *)
Definition gp_cov (e : vec * list vec) (tol : R) (L : mat) (X : mat) (x : vec) : R :=
  let kx := map (gk L x) X in
  let z := lincomb (length X) (snd e) (map (fun k => if Rltb tol (vget (fst e) k) then / vget (fst e) k * dot (nth k (snd e) []) kx else 0) (seq 0 (length X))) in
  let c := 1 - dot kx z in if Rltb c 0 then 0 else c.

(* ---------------- objective and gradient as functions of ell, gp.py 174-286 ---------------- *)
Definition gp_lml (eigh : mat -> vec * list vec) (tol tau : R) (B : option tbasis) (st : gstruct) (m : nat) (X : mat) (y ell : vec) : R :=
  let L := make_L st m ell in gp_obj y (fst (gp_weights eigh tol tau B X y L)) (fst (eigh (gp_Kt tau (gp_K L X)))).
(** [dexpm k]: the k-th complex step derivative of expm, gp.py 243-244 *)
Definition gp_dK (st : gstruct) (dexpm : nat -> mat) (m : nat) (X : mat) (ell : vec) (k : nat) : mat :=
  let L := make_L st m ell in
  match st with
  | GConst | GMult _ => gp_dK_scalar L X
  | GDiag => gp_dK_diag L X k
  | GTril _ => gp_dK_tril L (dexpm k) X
  end.
Definition gp_lml_grad (eigh : mat -> vec * list vec) (tol tau : R) (B : option tbasis) (st : gstruct) (dexpm : nat -> mat) (m : nat) (X : mat) (y ell : vec) (k : nat) : R :=
  let L := make_L st m ell in
  gp_grad (eigh (gp_Kt tau (gp_K L X))) (fst (gp_weights eigh tol tau B X y L)) (gp_dK st dexpm m X ell k).

(* ---------------- fit, gp.py 289-363 ---------------- *)
(** self.basis in _fit_init, gp.py 303-308: a Legendre basis scaled to the samples, or no trend *)
Definition gp_basis (degree : option nat) (m : nat) (X : mat) : option tbasis :=
  match degree with Some d => Some (mkTB legendre d m (set_scale m X)) | None => None end.
(** fit followed by _fit: [opt] is scipy.optimize.minimize, given the objective, its gradient and the starting value, and
    returns res.x.  [dexpm ell k]: the k-th complex step derivative of expm at ell.  Result: self.L, (self.alpha, self.beta). *)
Definition gp_fit (opt : (vec -> R) -> (vec -> nat -> R) -> vec -> vec) (eigh : mat -> vec * list vec) (tol tau : R) (degree : option nat)
  (st : gstruct) (dexpm : vec -> nat -> mat) (m : nat) (X : mat) (y : vec) (L0 : mat) : mat * (vec * vec) :=
  let B := gp_basis degree m X in
  let ell := opt (gp_lml eigh tol tau B st m X y) (fun ell k => gp_lml_grad eigh tol tau B st (dexpm ell) m X y ell k) (gp_ell0 st m L0) in
  let L := make_L st m ell in (L, gp_weights eigh tol tau B X y L).
(** eval of the fitted object, gp.py 366-376 *)
Definition gp_predict (degree : option nat) (m : nat) (X : mat) (f : mat * (vec * vec)) (x : vec) : R := gp_eval (gp_basis degree m X) X (fst f) (snd f) x.
