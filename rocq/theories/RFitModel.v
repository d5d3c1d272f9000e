(** Model of PolynomialRidgeApproximation.fit as a whole (psdr/polyridge.py 307-360, 516-541, 621-677): the choice of the method, the
    Gauss-Newton and the alternating optimization, and the final refit.  The pieces are those of RidgeModel.v and OptModel.v.  Real
    arithmetic is exact; a matrix U (m x n) is given by its columns. *)
Require Import Reals List Bool Arith ZArith.
From Verif Require Import RVec Num Sums DomModel DomMoreModel BasisModel MatLib LipModel SubModel OptModel RidgeModel.
Import ListNotations.
Local Open Scope R_scope.

(* ---------------- variables of the alternating method: U.flatten() followed by c ---------------- *)
(** U_c[:m*n].reshape(m,n), polyridge.py 553, 567, 601 *)
Definition alt_us (m n : nat) (x : vec) : list vec := unflat m n (firstn (m * n) x).
(** U_c[m*n:], polyridge.py 554, 568 *)
Definition alt_c (m n : nat) (x : vec) : vec := skipn (m * n) x.
(** np.hstack([U.flatten(), c]), polyridge.py 619, 645 *)
Definition alt_pack (m : nat) (us : list vec) (c : vec) : vec := flat m us ++ c.
(** norm handed to sequential_lp, polyridge.py 672 *)
Definition alt_norm (p : fnorm) : lp_norm := match p with BasisModel.N1 => OptModel.N1 | BasisModel.N2 => OptModel.N2 | Ninf => NInf_ end.
(** obj_lb and obj_ub, polyridge.py 661-667 *)
Definition alt_lb (bd : fbound) (M : nat) : option vec := match bd with Upper => Some (vzero M) | _ => None end.
Definition alt_ub (bd : fbound) (M : nat) : option vec := match bd with Lower => Some (vzero M) | _ => None end.
(** _residual, polyridge.py 544-560: it uses the basis [B] that was stored in self.basis by the last call of _fit_coef or _jacobian *)
Definition alt_res (m n : nat) (X : mat) (f : vec) (B : tbasis) (x : vec) : vec := pr_residual B (alt_us m n x) X f (alt_c m n x).
(** _trajectory, polyridge.py 590-619: new point, and the basis that _fit_coef stored in self.basis *)
Definition alt_traj (fitc : list vec -> tbasis * vec) (qr : list vec -> list vec * mat) (svd : list vec -> list vec * vec * list vec)
    (m n : nat) (x p : vec) (t : R) : vec * tbasis :=
  let us := pr_alt_traj qr svd m (alt_us m n x) (alt_us m n p) t in (alt_pack m us (snd (fitc us)), fst (fitc us)).

(* ---------------- sequential_lp with a residual that reads a mutable field ---------------- *)
(** seqlp.py 120-275 as in OptModel.v, with the state [b] threaded through the calls of trajectory (line 214), f (line 222) and jac
    (line 263).  [jacst x]: the state after jac(x).  The linear programs depend on jac(x), which rebuilds the basis from x. *)
Section StatefulLP.
  Context {St : Type}.
  Variable f : St -> vec -> vec.
  Variable nm : lp_norm.
  Variable traj : vec -> vec -> R -> vec * St.
  Variable jacst : vec -> St.
  Variable solve : vec -> vec -> option R -> lp.
  Variables lb ub : option vec.
  Variables tol_dx tol_obj : R.
  Variable verbose : bool.
  Fixpoint sls_in (k : nat) (first : bool) (b : St) (s : slst) : slst * bool * St :=
    match k with
    | O => (s, true, b)
    | S k' =>
        let last := Nat.eqb k' 0 in
        match solve (l_x s) (l_f s) (if first then None else Some (l_Delta s)) with
        | LUnb => if first then sls_in k' false b s
                  else sls_in k' false b (mkSl (l_x s) (l_f s) (l_obj s) (l_Delta s) true true (l_cv s) (l_hist s))
        | LOpt p =>
            let (xn, bn) := traj (l_x s) p 1 in
            if all_same tol_dx (l_x s) xn
            then (mkSl (l_x s) (l_f s) (l_obj s) (l_Delta s) true true (l_cv s) (l_hist s), last, bn)
            else
              let fn := f bn xn in
              let on := objfun nm fn in
              if (Rltb on (l_obj s) && Rleb (Rabs (viol lb ub fn)) (/ 10000000000))%bool
              then (mkSl xn fn on (Rmax 1 (norm2 p)) (l_stop s || Rltb (Rabs (on - l_obj s)) tol_obj) true true (xn :: l_hist s), last, bn)
              else sls_in k' false bn (mkSl (l_x s) (l_f s) (l_obj s) (l_Delta s * (1/2)) (l_stop s) true true (l_hist s))
        | LBad => sls_in k' false b (mkSl (l_x s) (l_f s) (l_obj s) (l_Delta s) true true (l_cv s) (l_hist s))
        end
    end.
  Fixpoint sls_loop (btmax left : nat) (b : St) (s : slst) : option (slst * St) :=
    match left with
    | O => Some (s, b)
    | S l =>
        let '(s', last, b') := sls_in btmax true b (mkSl (l_x s) (l_f s) (l_obj s) (l_Delta s) false (l_px s) (l_cv s) (l_hist s)) in
        if (verbose && negb (l_px s' && l_cv s'))%bool then None
        else if (l_stop s' || last)%bool then Some (s', jacst (l_x s')) else sls_loop btmax l (jacst (l_x s')) s'
    end.
  (** f(x0) is evaluated in the state b0 left by _fit_coef (polyridge.py 644), then jac(x0) *)
  Definition sequential_lp_st (btmax maxiter : nat) (b0 : St) (x0 : vec) : option (slst * St) :=
    sls_loop btmax maxiter (jacst x0) (mkSl x0 (f b0 x0) (objfun nm (f b0 x0)) 1 false false false [x0]).
End StatefulLP.

(** everything the code receives from numpy, scipy, cvxpy and the caller *)
Record fit_env := mkEnv {
  e_fitc : list vec -> tbasis * vec;                       (* _fit_coef, polyridge.py 396-416: self.basis and the coefficients *)
  e_aff : vec;                                             (* the solution b of the affine fit, polyridge.py 379-391 *)
  e_init : list vec;                                       (* columns of initialize_subspace(X, fX), polyridge.py 349 *)
  e_qr : list vec -> list vec * mat;                       (* np.linalg.qr *)
  e_svd : list vec -> list vec * vec * list vec;           (* scipy.linalg.svd of a step Delta *)
  e_svd1 : list vec -> list vec;                           (* left singular vectors of the gradients, polyridge.py 430 *)
  e_jac : vec -> mat;                                      (* _varpro_jacobian by rows, polyridge.py 463-505 *)
  e_svdJ : mat -> list vec * vec * list vec;               (* scipy.linalg.svd of the Jacobian, polyridge.py 520 *)
  e_lp : vec -> vec -> option R -> lp;                     (* the linear programs of sequential_lp *)
  e_verbose : bool; e_tol : R; e_tolx : R; e_tol_obj : R; e_btmax : nat; e_maxiter : nat }.

(* ---------------- _fit_varpro, polyridge.py 516-541 ---------------- *)
(** _varpro_residual, polyridge.py 448-461; the coefficients are those of the least squares fit of _fit_coef *)
Definition vp_flat (fitc : list vec -> tbasis * vec) (m n : nat) (X : mat) (f x : vec) : vec :=
  let us := unflat m n x in vp_residual (vp_V (fst (fitc us)) us X) f (snd (fitc us)).
(** gn_solver, polyridge.py 519-524; None: a kept singular value is zero (the step is not finite, gn.py 198-199), or none is kept
    (gn.py 224 reads s[-1] of an empty array; this happens after the line search, whose result is then lost) *)
Definition vp_gnsolver (svdJ : mat -> list vec * vec * list vec) (m n : nat) (A : mat) (r : vec) : option vec :=
  let '(ys, s, zs) := svdJ A in
  if Nat.eqb (gn_keep n s) 0 then None
  else if forallb (fun i => negb (Reqb (vget s i) 0)) (seq 0 (gn_keep n s)) then Some (gn_solve (m * n) n ys s zs r) else None.
(** the line search along _grassmann_trajectory, gn.py 207 *)
Definition vp_ls (E : fit_env) (m n : nat) (X : mat) (f : vec) (g p x : vec) : option (vec * R * vec) :=
  linesearch_armijo (fun x => Some (vp_flat (e_fitc E) m n X f x))
    (fun x p t => Some (flat m (pr_traj (e_qr E) (e_svd E) m (unflat m n x) (unflat m n p) t))) g p x (1/2) (/ 10000) 40 None.
Definition fit_varpro (E : fit_env) (m n : nat) (X : mat) (f : vec) (us0 : list vec) : option (list vec) :=
  match gauss_newton (m * n) (vp_flat (e_fitc E) m n X f) (e_jac E) (vp_gnsolver (e_svdJ E) m n) (vp_ls E m n X f)
          (e_verbose E) (e_tol E) (e_tolx E) (e_maxiter E) (flat m us0) with
  | None => None
  | Some (x, _) => Some (unflat m n x)
  end.

(* ---------------- _fit_alternating, polyridge.py 621-677 ---------------- *)
Definition alt_run (E : fit_env) (m n : nat) (p : fnorm) (bd : fbound) (X : mat) (f : vec) (us0 : list vec) : option (slst * tbasis) :=
  sequential_lp_st (alt_res m n X f) (alt_norm p) (alt_traj (e_fitc E) (e_qr E) (e_svd E) m n) (fun x => fst (e_fitc E (alt_us m n x)))
    (e_lp E) (alt_lb bd (length X)) (alt_ub bd (length X)) (e_tolx E) (e_tol_obj E) (e_verbose E) (e_btmax E) (e_maxiter E)
    (fst (e_fitc E us0)) (alt_pack m us0 (snd (e_fitc E us0))).
Definition fit_alternating (E : fit_env) (m n : nat) (p : fnorm) (bd : fbound) (X : mat) (f : vec) (us0 : list vec) : option (list vec) :=
  match alt_run E m n p bd X f us0 with None => None | Some (s, _) => Some (alt_us m n (l_x s)) end.

(* ---------------- fit, polyridge.py 307-360 ---------------- *)
Inductive fit_result := Underdetermined | BadShape | Raises | Fitted (us : list vec) (B : tbasis) (c : vec).
Definition is_two (p : fnorm) (bd : fbound) : bool := match p, bd with BasisModel.N2, NoBound => true | _, _ => false end.
(** [n], [d]: subspace_dimension and degree after __init__; [U0]: the columns of the argument U0.  The coefficients are exact
    (e_fitc); an exception of the optimization is Raises. *)
Definition pr_fit (E : fit_env) (m n d : nat) (p : fnorm) (bd : fbound) (rotate : bool) (X : mat) (f : vec) (U0 : option (list vec)) : fit_result :=
  if negb (Nat.eqb (length X) (length f)) then BadShape
  else if negb (pr_enough m n d (length X)) then Underdetermined
  else if Nat.eqb n 1 && Nat.eqb d 1 then
    let us := [aff_U m X (e_aff E)] in Fitted us (fst (e_fitc E us)) (snd (e_fitc E us))
  else
    let u0 := match U0 with Some u => u | None => firstn n (e_init E) end in
    if negb (Nat.eqb (length u0) n && forallb (fun u => Nat.eqb (length u) m) u0) then BadShape
    else
      let us := orth (e_qr E) u0 in
      match (if is_two p bd then fit_varpro E m n X f us else fit_alternating E m n p bd X f us) with
      | None => Raises
      | Some us' => let r := finish (e_fitc E) (e_svd1 E) m rotate X us' in Fitted (fst r) (fst (snd r)) (snd (snd r))
      end.
