(** Generated by tools/mkprops.py from tools/props/RidgeProps.spec: the property theorems. *)
Require Import Reals List Bool Arith ZArith ZArith.
From Verif Require Import RVec Num Sums DomModel DomMoreModel SweepProofs HullProofs Deriv MatLib SpecProofs BasisModel IndexProofs PolyProofs LipModel LipFitProofs GrassLib SubModel ActiveProofs RidgeModel RidgeProofs TrajProofs TrajCases PolySpan VarproLib VarproProofs GnStep VarproCases.
Import ListNotations.
Local Open Scope R_scope.

Local Open Scope R_scope.

(** C58: ridge functions *)
Theorem C58_invariant : forall B c m us x v, length x = m -> length v = m -> (forall u, In u us -> dot u v = 0) ->
  ridge_eval B c us (vadd x v) = ridge_eval B c us x /\ ridge_grad B c m us (vadd x v) = ridge_grad B c m us x /\ ridge_hess B c m us (vadd x v) = ridge_hess B c m us x.
Proof. exact ridge_invariant. Qed.
Print Assumptions C58_invariant.

Theorem C58_gradient : forall B c m us x v, fam_ok (tb_fam B) -> length us = tb_dim B -> Forall (fun u => length u = m) us -> (1 <= tb_dim B)%nat -> length c = length (indices B) -> length x = m -> length v = m ->
  length (ridge_grad B c m us x) = m /\ derivable_pt_lim (fun t => ridge_eval B c us (vadd x (vscale t v))) 0 (dot (ridge_grad B c m us x) v).
Proof. exact ridge_grad_correct. Qed.
Print Assumptions C58_gradient.

Theorem C58_hessian : forall B c m us x v, fam_ok (tb_fam B) -> length us = tb_dim B -> Forall (fun u => length u = m) us -> (1 <= tb_dim B)%nat -> length c = length (indices B) -> length x = m -> length v = m ->
  length (ridge_hess B c m us x) = m /\
  (forall i, (i < m)%nat -> length (nth i (ridge_hess B c m us x) []) = m /\
    derivable_pt_lim (fun t => vget (ridge_grad B c m us (vadd x (vscale t v))) i) 0 (dot (nth i (ridge_hess B c m us x) []) v)) /\
  forall i j, (i < m)%nat -> (j < m)%nat -> vget (nth i (ridge_hess B c m us x) []) j = vget (nth j (ridge_hess B c m us x) []) i.
Proof. exact ridge_hess_correct. Qed.
Print Assumptions C58_hessian.

Example C58_case : exists B us (x v : vec), fam_ok (tb_fam B) /\ length us = tb_dim B /\ Forall (fun u : vec => length u = 3%nat) us /\ (1 <= tb_dim B)%nat /\ length (repeat 1 6) = length (indices B) /\ length x = 3%nat /\ length v = 3%nat /\ (forall u, In u us -> dot u v = 0) /\ v <> vzero 3.
Proof. exact ridge_case. Qed.

(** C59: trajectories on the Grassmann manifold *)
Theorem C59_orth_keeps : forall qr m us, qr_post m us (fst (qr us)) (snd (qr us)) -> orthonormal us -> orth qr us = us.
Proof. exact orth_keeps. Qed.
Print Assumptions C59_orth_keeps.

Theorem C59_orth_full_rank : forall qr m us, qr_post m us (fst (qr us)) (snd (qr us)) -> independent m us ->
  length (orth qr us) = length us /\ Forall (fun u => length u = m) (orth qr us) /\ orthonormal (orth qr us) /\ same_span m (orth qr us) us /\
  forall k, (k < length us)%nat -> 0 < dot (nth k (orth qr us) []) (nth k us []).
Proof. exact orth_full_rank. Qed.
Print Assumptions C59_orth_full_rank.

Theorem C59_orth_rank_refuted : exists us, (exists q r, qr_post 2 us q r) /\ us = [[1; 0]; [1; 0]] /\
  forall qr, qr_post 2 us (fst (qr us)) (snd (qr us)) -> nth 1 (orth qr us) [] = vzero 2 /\ ~ orthonormal (orth qr us).
Proof. exact orth_rank_refuted. Qed.
Print Assumptions C59_orth_rank_refuted.

Theorem C59_trajectory : forall qr svd m us ds t, traj_pre m us ds -> svd_good svd m ds -> qr_post m (pv_traj svd m us ds t) (fst (qr (pv_traj svd m us ds t))) (snd (qr (pv_traj svd m us ds t))) ->
  pr_traj qr svd m us ds t = pv_traj svd m us ds t /\ length (pv_traj svd m us ds t) = length us /\ Forall (fun u => length u = m) (pv_traj svd m us ds t) /\ orthonormal (pv_traj svd m us ds t).
Proof. exact traj_orthonormal. Qed.
Print Assumptions C59_trajectory.

Theorem C59_start : forall svd m us ds, traj_pre m us ds -> svd_good svd m ds -> same_span m (pv_traj svd m us ds 0) us /\
  forall a b, (a < m)%nat -> (b < m)%nat -> projector (pv_traj svd m us ds 0) a b = projector us a b /\
    derivable_pt_lim (fun t => projector (pv_traj svd m us ds t) a b) 0 (rsum (length us) (fun c => vget (nth c ds []) a * vget (nth c us []) b + vget (nth c us []) a * vget (nth c ds []) b)).
Proof. exact traj_start. Qed.
Print Assumptions C59_start.

Theorem C59_start_matrix_refuted : exists svd m us ds, traj_pre m us ds /\ svd_good svd m ds /\ pv_traj svd m us ds 0 <> us /\
  forall qr, qr_post m (pv_traj svd m us ds 0) (fst (qr (pv_traj svd m us ds 0))) (snd (qr (pv_traj svd m us ds 0))) -> pr_traj qr svd m us ds 0 <> us.
Proof. exact traj_matrix_refuted. Qed.
Print Assumptions C59_start_matrix_refuted.

Theorem C59_alternating : forall qr svd m us ds t, independent m us -> qr_post m us (fst (qr us)) (snd (qr us)) -> length ds = length us -> Forall (fun d => length d = m) ds ->
  svd_good svd m (horiz m (orth qr us) ds) ->
  length (pr_alt_traj qr svd m us ds t) = length us /\ Forall (fun u => length u = m) (pr_alt_traj qr svd m us ds t) /\ orthonormal (pr_alt_traj qr svd m us ds t) /\ same_span m (pr_alt_traj qr svd m us ds 0) us.
Proof. exact alt_traj_orthonormal. Qed.
Print Assumptions C59_alternating.

Example C59_case : traj_pre 3 tu td /\ svd_good tsvd 3 td /\ (forall t, exists qr : list vec -> list vec * mat, qr_post 3 (pv_traj tsvd 3 tu td t) (fst (qr (pv_traj tsvd 3 tu td t))) (snd (qr (pv_traj tsvd 3 tu td t)))) /\
  projector (pv_traj tsvd 3 tu td 1) 2 2 <> projector tu 2 2.
Proof. exact traj_case. Qed.

Example C59_alternating_case : independent 3 au /\ ~ orthonormal au /\ qr_post 3 au (fst (aqr au)) (snd (aqr au)) /\ length ad = length au /\ Forall (fun d : vec => length d = 3%nat) ad /\ svd_good asvd 3 (horiz 3 (orth aqr au) ad) /\ horiz 3 (orth aqr au) ad <> ad.
Proof. exact alt_case. Qed.

(** C90: variable projection *)
Theorem C90_subspace : forall B B' m n n' us us' X f c c', basis_ok B n -> basis_ok B' n' -> tb_deg B' = tb_deg B -> length us = n -> length us' = n' -> Forall (fun u => length u = m) us -> Forall (fun u => length u = m) us' ->
  same_span m us us' -> Forall (fun x => length x = m) X -> length f = length X -> ls_opt (length (indices B)) (vp_V B us X) f c -> ls_opt (length (indices B')) (vp_V B' us' X) f c' ->
  vp_residual (vp_V B us X) f c = vp_residual (vp_V B' us' X) f c'.
Proof. exact varpro_subspace. Qed.
Print Assumptions C90_subspace.

Theorem C90_jacobian : forall (basis : list vec -> tbasis) (coef : list vec -> vec) m n us ds X f ys s zs a,
  length us = n -> length ds = n -> Forall (fun u => length u = m) us -> Forall (fun u => length u = m) ds -> Forall (fun x => length x = m) X -> length f = length X -> (a < length X)%nat ->
  near (fun t => let U := line us ds t in basis_ok (basis U) n /\ tb_deg (basis U) = tb_deg (basis us) /\ ls_opt (length (indices (basis U))) (vp_V (basis U) U X) f (coef U)) ->
  svd_mat (length X) (length (indices (basis us))) (vp_V (basis us) us X) ys s zs -> (forall k, (k < length s)%nat -> vget s k <> 0) ->
  derivable_pt_lim (fun t => let U := line us ds t in vget (vp_residual (vp_V (basis U) U X) f (coef U)) a) 0
    (vget (lincomb (length X) (vp_jac (basis us) us m X ys s zs (coef us) (vp_residual (vp_V (basis us) us X) f (coef us))) (flat m ds)) a).
Proof. exact varpro_jacobian_correct. Qed.
Print Assumptions C90_jacobian.

Theorem C90_kernel : forall B m n us ds X ys s zs c r, basis_ok B n -> length us = n -> Forall (fun u => length u = m) us -> Forall (fun x => length x = m) X -> within m us ds ->
  svd_mat (length X) (length (indices B)) (vp_V B us X) ys s zs -> length c = length (indices B) -> length r = length X -> (forall e, length e = length (indices B) -> dot r (mv (vp_V B us X) e) = 0) ->
  lincomb (length X) (vp_jac B us m X ys s zs c r) (flat m ds) = vzero (length X).
Proof. exact jac_kernel. Qed.
Print Assumptions C90_kernel.

Example C90_subspace_case : exists B B' us us' X f c c', basis_ok B 1 /\ basis_ok B' 1 /\ tb_deg B' = tb_deg B /\ same_span 2 us us' /\ us <> us' /\ Forall (fun x : vec => length x = 2%nat) X /\ length f = length X /\
  ls_opt (length (indices B)) (vp_V B us X) f c /\ ls_opt (length (indices B')) (vp_V B' us' X) f c' /\ vp_residual (vp_V B us X) f c <> vzero (length X).
Proof. exact subspace_case. Qed.

Example C90_case : near (fun t => let U := line [[1; 0]] [[0; 1]] t in basis_ok exB 1 /\ tb_deg exB = tb_deg exB /\ ls_opt (length (indices exB)) (vp_V exB U exX) exF (exC U)) /\
  svd_mat (length exX) (length (indices exB)) (vp_V exB [[1; 0]] exX) exY exS exZ /\ (forall k, (k < length exS)%nat -> vget exS k <> 0) /\
  derivable_pt_lim (fun t => let U := line [[1; 0]] [[0; 1]] t in vget (vp_residual (vp_V exB U exX) exF (exC U)) 1) 0 (-7).
Proof. exact jac_case. Qed.

(** C94: Gauss-Newton step *)
Theorem C94_horizontal : forall B m n us X f c ys s zs yJ sJ zJ, gn_pre B m n us X f c ys s zs -> svd_post (length X) (gn_jac B m us X f c ys s zs) yJ sJ zJ -> (forall i, (i < gn_keep n sJ)%nat -> vget sJ i <> 0) ->
  tangent us (unflat m n (gn_solve (m * n) n yJ sJ zJ (vp_residual (vp_V B us X) f c))).
Proof. exact gn_step_horizontal. Qed.
Print Assumptions C94_horizontal.

Theorem C94_minimises : forall B m n us X f c ys s zs yJ sJ zJ q', gn_pre B m n us X f c ys s zs -> orthonormal us -> svd_post (length X) (gn_jac B m us X f c ys s zs) yJ sJ zJ ->
  (forall i j, (i <= j)%nat -> (j < length sJ)%nat -> 0 <= vget sJ j <= vget sJ i) -> (forall i, (i < gn_keep n sJ)%nat -> vget sJ i <> 0) -> length q' = (m * n)%nat ->
  let r := vp_residual (vp_V B us X) f c in let J := gn_jac B m us X f c ys s zs in
  norm2 (vadd r (lincomb (length X) J (gn_solve (m * n) n yJ sJ zJ r))) <= norm2 (vadd r (lincomb (length X) J q')).
Proof. exact gn_step_minimises. Qed.
Print Assumptions C94_minimises.

Example C94_case : gn_pre exB 2 1 [[1; 0]] exX exF (exC [[1; 0]]) exY exS exZ /\ svd_post (length exX) (gn_jac exB 2 [[1; 0]] exX exF (exC [[1; 0]]) exY exS exZ) exYJ exSJ exZJ /\ orthonormal [[1; 0]] /\
  (forall i j, (i <= j)%nat -> (j < length exSJ)%nat -> 0 <= vget exSJ j <= vget exSJ i) /\ (forall i, (i < gn_keep 1 exSJ)%nat -> vget exSJ i <> 0) /\
  unflat 2 1 (gn_solve (2 * 1) 1 exYJ exSJ exZJ (vp_residual (vp_V exB [[1; 0]] exX) exF (exC [[1; 0]]))) = [[0; 12/25]].
Proof. exact step_case. Qed.
