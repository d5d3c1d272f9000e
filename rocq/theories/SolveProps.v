(** Generated by tools/mkprops.py from tools/props/SolveProps.spec: the property theorems. *)
Require Import Reals List Bool Arith ZArith.
From Verif Require Import RVec Num DomModel DomSpec DomMoreModel LipModel LipProofs CvxProofs MatLib SpecProofs LinProg Spectral Decomp SubModel BasisModel RidgeModel ShadowProofs HullProofs NonlinProofs MiniModel LloydProofs VoronoiProofs SolveFit SolveDom SolveMore Minkowski HullConvCases SolveCases.
Import ListNotations.
Local Open Scope R_scope.

Local Open Scope R_scope.

(** the optimization problems handed to the solvers have solutions: the contracts of the solvers can be met *)
Theorem C14_solvable : forall nlb nub d A b, norm_ok nlb nub d -> Forall (fun r => length r = dim d) A -> length b = length A -> quads d = [] \/ bounded_dom d -> (exists x, member d x) -> exists x, cls_returns nlb nub d A b x.
Proof. exact cls_exists. Qed.
Print Assumptions C14_solvable.

Theorem C66_solvable : forall nlb nub d tol L x0, norm_ok nlb nub d -> Forall (fun r => length r = dim d) L -> length x0 = dim d -> quads d = [] \/ bounded_dom d -> (exists x, member d x) -> exists x, closest_returns nlb nub d tol L x0 x.
Proof. exact closest_exists. Qed.
Print Assumptions C66_solvable.

Theorem C67_solvable : forall nlb nub d p, norm_ok nlb nub d -> length p = dim d -> bounded_dom d -> (exists x, member d x) -> exists x, corner_returns nlb nub d p x.
Proof. exact corner_exists_bounded. Qed.
Print Assumptions C67_solvable.

Theorem C67_solvable_linear : forall nlb nub d p, norm_ok nlb nub d -> length p = dim d -> quads d = [] -> (exists x, member d x) -> (exists c, forall x, member d x -> dot p x <= c) -> exists x, corner_returns nlb nub d p x.
Proof. exact corner_exists_linear. Qed.
Print Assumptions C67_solvable_linear.

Theorem C67_unbounded : forall nlb nub d p, norm_ok nlb nub d -> length p = dim d -> (forall c, exists x, member d x /\ c < dot p x) -> ~ exists x, corner_returns nlb nub d p x.
Proof. exact corner_unbounded. Qed.
Print Assumptions C67_unbounded.

Theorem C71_solvable : forall d, dom_wf d -> quads d = [] -> dAeq d = [] -> (exists x, member d x) -> (exists i l u, (i < dim d)%nat /\ forall x, member d x -> l <= vget x i <= u) -> exists x r, cheb_returns d x r.
Proof. exact cheb_exists_bounded. Qed.
Print Assumptions C71_solvable.

Theorem C71_equality_refuted : exists d, dom_wf d /\ quads d = [] /\ (exists x, member d x) /\ (exists i l u, (i < dim d)%nat /\ forall x, member d x -> l <= vget x i <= u) /\ ~ exists x r, cheb_returns d x r.
Proof. exact cheb_equality_refuted. Qed.
Print Assumptions C71_equality_refuted.

Example C66_solvable_case : norm_ok (lb usq) (ub usq) usq /\ quads usq = [] /\ dAeq usq = [] /\ bounded_dom usq /\ (exists x, member usq x) /\ (exists i l u, (i < dim usq)%nat /\ forall x, member usq x -> l <= vget x i <= u) /\ (exists c, forall x, member usq x -> dot [1; 2] x <= c).
Proof. exact usq_case. Qed.

Example C67_unbounded_case : norm_ok [NInf] [PInf] half /\ (forall c, exists x, member half x /\ c < dot [1] x) /\ ~ exists x, corner_returns [NInf] [PInf] half [1] x.
Proof. exact half_case. Qed.

Theorem C60_solvable : forall p bd n A b e, Forall (fun r => length r = n) A -> length b = length A -> length e = n -> mv A e = repeat 1 (length A) -> exists x, length x = n /\ linear_fit_returns p bd A b x.
Proof. exact linear_fit_const. Qed.
Print Assumptions C60_solvable.

Theorem C60_poly_solvable : forall B p bd X fX, (forall t, phi (tb_fam B) 0 t = 1) -> length fX = length X -> exists c, length c = length (indices B) /\ linear_fit_returns p bd (map (Vrow B) X) fX c.
Proof. exact poly_fit_exists. Qed.
Print Assumptions C60_poly_solvable.

Theorem C60_ridge_solvable : forall B us p bd X f, (forall t, phi (tb_fam B) 0 t = 1) -> length f = length X -> exists c, coef_returns p bd (length (indices B)) (vp_V B us X) f c.
Proof. exact ridge_coef_exists. Qed.
Print Assumptions C60_ridge_solvable.

Theorem C60_affine_solvable : forall p bd m X f, Forall (fun x => length x = m) X -> length f = length X -> exists b, aff_b_returns p bd m X f b.
Proof. exact aff_fit_exists. Qed.
Print Assumptions C60_affine_solvable.

Example C60_solvable_case : Forall (fun r : vec => length r = 2%nat) [[1; 0]; [1; 1]; [1; 2]] /\ length [1; 0; 2] = length [[1; 0]; [1; 1]; [1; 2]] /\ length [1; 0] = 2%nat /\ mv [[1; 0]; [1; 1]; [1; 2]] [1; 0] = repeat 1 (length [[1; 0]; [1; 1]; [1; 2]]) /\
  ~ exists x, length x = 2%nat /\ mv [[1; 0]; [1; 1]; [1; 2]] x = [1; 0; 2].
Proof. exact fit_case. Qed.

Example C60_poly_case : forall t, phi monomials 0 t = 1.
Proof. exact poly_case. Qed.

Theorem C15_solvable : forall h x, Forall (fun p => length p = dim (hcon h)) (hX h) -> length x = dim (hcon h) -> exists al, nnls_contract h x al.
Proof. exact nnls_exists. Qed.
Print Assumptions C15_solvable.

Theorem C68_solvable : forall h x p, Forall (fun q => length q = dim (hcon h)) (hX h) -> length x = dim (hcon h) -> length p = dim (hcon h) -> (exists k, vget p k <> 0) ->
  norm_feasible (hull_nlb h) (hull_nub h) (hcon h) (normalize (hull_nlb h) (hull_nub h) x) -> (exists beta, hull_step h x p beta) -> exists e, hull_extent_returns h x p e.
Proof. exact hull_extent_exists. Qed.
Print Assumptions C68_solvable.

Example C68_solvable_case : Forall (fun q => length q = dim (hcon ex_hull)) (hX ex_hull) /\ (exists k, vget [2] k <> 0) /\ norm_feasible (hull_nlb ex_hull) (hull_nub ex_hull) (hcon ex_hull) (normalize (hull_nlb ex_hull) (hull_nub ex_hull) [1]) /\ hull_step ex_hull [1] [2] (1/2).
Proof. exact step_case. Qed.

Theorem C64_solvable : forall m X fX, Forall (fun x => length x = m) X -> distinct X -> (2 <= length X)%nat -> exists a L, nl_solved m X fX a L.
Proof. exact nl_exists. Qed.
Print Assumptions C64_solvable.

Theorem C114_solvable : forall m L X, Forall (fun r => length r = m) L -> X <> [] -> Forall (fun p => length p = m) X -> exists c, length c = m /\ forall y, length y = m -> mb_obj L X c <= mb_obj L X y.
Proof. exact miniball_solvable. Qed.
Print Assumptions C114_solvable.

Theorem C81_centre_solvable : forall d L V, dom_wf d -> quads d = [] -> (exists x, member d x) -> Forall (fun r => length r = dim d) L -> V <> [] -> Forall (member d) V ->
  exists c, member d c /\ forall z, member d z -> radius L V c <= radius L V z.
Proof. exact lloyd_solvable. Qed.
Print Assumptions C81_centre_solvable.

Example C114_solvable_case : [[0; 0]; [1; 0]; [0; 1]] <> [] /\ Forall (fun p => length p = 2%nat) [[0; 0]; [1; 0]; [0; 1]] /\ Forall (member usq) [[0; 0]; [1; 0]; [0; 1]] /\ distinct [[0]; [1]; [3]] /\ length [[0]; [1]; [3]] = 3%nat.
Proof. exact pts_case. Qed.

Theorem C65_solvable : forall y n f, (2 <= n)%nat -> vmin y < vmax y -> length f = length y -> balanced n (se_A y n) -> (exists v, se_ub_ok n (se_A y n) f v) /\ exists v, se_lb_ok n (se_A y n) f v.
Proof. exact envelope_solvable. Qed.
Print Assumptions C65_solvable.

Example C65_solvable_case : (2 <= 2)%nat /\ vmin [0; 1] < vmax [0; 1] /\ length [3; 4] = length [0; 1] /\ balanced 2 (se_A [0; 1] 2).
Proof. exact env_case. Qed.

Theorem C86_vertices : forall m rows B, rect m rows -> (forall y i, length y = m -> sat rows y -> (i < m)%nat -> Rabs (vget y i) <= B) -> exists vs, hsi_ok m rows vs.
Proof. exact hsi_exists. Qed.
Print Assumptions C86_vertices.

Theorem C86_cells : forall m A b L Linv Xhat B, Forall (fun r => length r = m) A -> inverse_of m L Linv -> Forall (fun x => length x = m) Xhat -> Xhat <> [] ->
  (forall y i, length y = m -> sat (combine A b) y -> (i < m)%nat -> Rabs (vget y i) <= B) -> forall k, (k < length Xhat)%nat -> exists vs, hsi_ok m (hs_rows m A b L Linv Xhat k) vs.
Proof. exact cell_vertices_exist. Qed.
Print Assumptions C86_cells.

Example C86_vertices_case : rect 2 sq_eqs /\ (forall y i, length y = 2%nat -> sat sq_eqs y -> (i < 2)%nat -> Rabs (vget y i) <= 1) /\ inverse_of 2 [[2; 0]; [0; 1]] [[1/2; 0]; [0; 1]] /\ combine (map fst sq_eqs) (map snd sq_eqs) = sq_eqs.
Proof. exact sq_rows_case. Qed.

Theorem C17_solvable : forall n, (1 <= n)%nat -> exists ew ev, eigh_contract n (jacobi n) ew ev.
Proof. exact gauss_solvable. Qed.
Print Assumptions C17_solvable.

Theorem C53_svd_exists : forall m cols, Forall (fun c => length c = m) cols -> exists us s vs, SubModel.svd_full m cols us s vs.
Proof. exact svd_full_exists. Qed.
Print Assumptions C53_svd_exists.

Theorem C54_qr_exists : forall m cols, Forall (fun c => length c = m) cols -> (length cols <= m)%nat -> exists q r, SubModel.qr_post m cols q r.
Proof. exact qr_exists. Qed.
Print Assumptions C54_qr_exists.

Theorem C79_svd_exists : forall p m L, length L = p -> Forall (fun r => length r = m) L -> exists us s VT, BlockProofs.svd_full p m L us s VT /\ length s = Nat.min m p.
Proof. exact svd_rows_exists. Qed.
Print Assumptions C79_svd_exists.

Theorem C98_eigh_exists : forall m A, sq m A -> msym m A -> exists e, eigh_post m A e.
Proof. exact eigh_exists. Qed.
Print Assumptions C98_eigh_exists.

Example C98_eigh_case : sq 2 [[2; 1]; [1; 2]] /\ msym 2 [[2; 1]; [1; 2]] /\ Forall (fun c => length c = 2%nat) [[1; 0]; [1; 1]; [0; 1]].
Proof. exact mat_case. Qed.
