(** Generated by tools/mkprops.py from tools/props/RandProps.spec: the property theorems. *)
Require Import Reals List Bool Arith ZArith.
From Verif Require Import RVec Num Sums MatLib SpecProofs DomModel DomSpec DomProofs NormProofs DomMoreModel CvxProofs QuadProofs PredModel PredProofs NbModel NbProofs CholProofs RandModel RandProofs RandBounds CholAlg RandCases.
Import ListNotations.
Local Open Scope R_scope.

Local Open Scope R_scope.

(** C130: normalized random domains keep membership, samples and measure *)
Theorem C130_normal_normalized : forall chol tinv isf det m mean cov t nlb nub, chol_spec chol -> tinv_spec tinv -> det_spec det -> (forall a, t = Some a -> 0 < isf a m) ->
  length mean = m -> factors m cov -> length nlb = m -> length nub = m -> oriented nlb nub ->
  let d := normal_new chol tinv isf mean cov t in let d' := normal_normalized chol tinv isf nlb nub d in let N := normal_normalize nlb nub d in
  (forall i, vget (n_mean d') i = 0) /\
  (forall i j, (i < m)%nat -> (j < m)%nat -> ent (n_cov d') i j = vget (nslopes nlb nub) i * ent cov i j * vget (nslopes nlb nub) j) /\
  (forall xi, length xi = m -> normal_point d' xi = N (normal_point d xi)) /\
  forall x, length x = m -> (member (ndom_dom d') (N x) <-> member (ndom_dom d) x) /\
    (forall tol, inside1 (ndom_dom d') (N x) tol = inside1 (ndom_dom d) x tol) /\
    forall tol, normal_pdf det d tol x = vprod (nslopes nlb nub) * normal_pdf det d' tol (N x).
Proof. exact normalized_normal. Qed.
Print Assumptions C130_normal_normalized.

Theorem C130_normal_bounds : forall chol tinv isf m mean cov t cor, chol_spec chol -> tinv_spec tinv -> length mean = m -> factors m cov -> (forall a, t = Some a -> 0 < isf a m) ->
  let d := normal_new chol tinv isf mean cov t in normal_solver m d cor ->
  forall qs, run (lb (ndom_dom d)) (ub (ndom_dom d)) cor qs fresh = map (fun q => Some (match t, q with
    | Some a, QLower => normal_nlb mean cov (isf a m) | Some a, QUpper => normal_nub mean cov (isf a m) | None, QLower => repeat NInf m | None, QUpper => repeat PInf m end)) qs.
Proof. exact normal_code_bounds. Qed.
Print Assumptions C130_normal_bounds.

Theorem C130_normal_range : forall m mean cov L Linv c i, length mean = m -> chol_ok m cov L -> inv_ok m L Linv -> 0 < c -> (i < m)%nat ->
  let M := member (normal_dom mean Linv (Some c)) in let w := sqrt (c * ent cov i i) in
  (forall x, M x -> vget mean i - w <= vget x i <= vget mean i + w) /\ (exists x, M x /\ vget x i = vget mean i - w) /\ (exists x, M x /\ vget x i = vget mean i + w).
Proof. exact normal_range. Qed.
Print Assumptions C130_normal_range.

Theorem C130_normal_unit : forall chol tinv isf m mean cov t c, chol_spec chol -> tinv_spec tinv -> length mean = m -> factors m cov -> c = isf t m -> 0 < c ->
  let d := normal_new chol tinv isf mean cov (Some t) in let d' := normal_normalized chol tinv isf (normal_nlb mean cov c) (normal_nub mean cov c) d in
  normal_nlb (n_mean d') (n_cov d') c = repeat (Fin (-1)) m /\ normal_nub (n_mean d') (n_cov d') c = repeat (Fin 1) m /\ n_clip d' = Some c /\
  forall x, member (ndom_dom d') x -> forall i, (i < m)%nat -> -1 <= vget x i <= 1.
Proof. exact normal_normalized_unit. Qed.
Print Assumptions C130_normal_unit.

Theorem C130_solver_exists : forall chol tinv isf m mean cov t, chol_spec chol -> tinv_spec tinv -> length mean = m -> factors m cov -> (forall a, t = Some a -> 0 < isf a m) ->
  let d := normal_new chol tinv isf mean cov t in normal_solver m d (fun _ _ p => ell_corner m d p).
Proof. exact normal_solver_exists. Qed.
Print Assumptions C130_solver_exists.

Theorem C130_covariances : forall m cov, sq_mat m cov -> (factors m cov <-> posdef m (ent cov)).
Proof. exact factors_iff. Qed.
Print Assumptions C130_covariances.

Theorem C130_cholesky : chol_spec cholesky.
Proof. exact cholesky_spec. Qed.
Print Assumptions C130_cholesky.

Theorem C130_triangular_inverse : tinv_spec tri_inv.
Proof. exact tri_inv_spec. Qed.
Print Assumptions C130_triangular_inverse.

Theorem C130_determinant : det_spec det_chol.
Proof. exact det_chol_spec. Qed.
Print Assumptions C130_determinant.

Theorem C130_factor_unique : forall m cov L K, chol_ok m cov L -> chol_ok m cov K -> L = K.
Proof. exact chol_unique. Qed.
Print Assumptions C130_factor_unique.

Example C130_normal_case : chol_spec cholesky /\ tinv_spec tri_inv /\ det_spec det_chol /\ factors 2 ncov /\ 0 < nisf (1 / 10) 2 /\ oriented [Fin (-5); Fin (-16)] [Fin 7; Fin 14] /\
  n_L nd = nfac /\ det_chol ncov = 64 /\
  ent (n_cov nd') 0 0 = 1 / 9 /\ ent (n_cov nd') 0 1 = 1 / 15 /\ ent (n_cov nd') 1 1 = 1 / 9 /\
  (forall tol x, length x = 2%nat -> normal_pdf det_chol nd tol x = 1 / 90 * normal_pdf det_chol nd' tol (normal_normalize [Fin (-5); Fin (-16)] [Fin 7; Fin 14] nd x)) /\
  normal_pdf det_chol nd 0 [1; -1] <> 0.
Proof. exact normal_case. Qed.

Example C130_unit_case : factors 2 ncov /\ 0 < nisf (1 / 10) 2 /\ normal_nlb [1; -1] ncov 9 = [Fin (-5); Fin (-16)] /\ normal_nub [1; -1] ncov 9 = [Fin 7; Fin 14] /\
  normal_nlb (n_mean nd') (n_cov nd') 9 = [Fin (-1); Fin (-1)] /\ normal_nub (n_mean nd') (n_cov nd') 9 = [Fin 1; Fin 1].
Proof. exact normal_unit_case. Qed.

Example C130_bounds_case : normal_solver 2 nd (fun _ _ p => ell_corner 2 nd p) /\
  run (lb (ndom_dom nd)) (ub (ndom_dom nd)) (fun _ _ p => ell_corner 2 nd p) [QUpper; QLower] fresh = [Some [Fin 7; Fin 14]; Some [Fin (-5); Fin (-16)]].
Proof. exact normal_bounds_case. Qed.

Example C130_factors_case : posdef 2 (ent ncov) /\ ~ factors 2 [[1; 2]; [2; 1]].
Proof. exact factors_case. Qed.

Theorem C130_lognormal_normalized : forall d, 0 < g_scale d -> (forall a b, g_trunc d = Some (a, b) -> a < b) ->
  let d' := logn_normalized d in
  (forall y, logn_draw d' y = logn_normalize d (logn_draw d y)) /\
  (g_trunc d <> None -> logn_bounds d' = (Fin (-1), Fin 1)) /\ (g_trunc d = None -> d' = d /\ forall x, logn_normalize d x = x) /\
  forall x, logn_density d' (logn_normalize d x) = logn_density d x.
Proof. exact logn_normalized_spec. Qed.
Print Assumptions C130_lognormal_normalized.

Example C130_lognormal_case : 0 < g_scale lnd /\ (forall a b, g_trunc lnd = Some (a, b) -> a < b) /\ logn_bounds lnd = (Fin 4, Fin 5) /\ logn_bounds (logn_normalized lnd) = (Fin (-1), Fin 1) /\
  logn_draw lnd (ln (3 / 2)) = 9 / 2 /\ logn_draw (logn_normalized lnd) (ln (3 / 2)) = 0.
Proof. exact logn_case. Qed.

Theorem C130_lognormal_density : forall d a b, g_trunc d = Some (a, b) -> a < b -> 0 < g_scale d -> 0 < g_cov d ->
  is_logn_density (g_mean d) (g_cov d) (g_off d) (g_scale d) (logn_density d) ->
  let d' := logn_normalized d in
  (is_logn_density (g_mean d') (g_cov d') (g_off d') (g_scale d') (logn_density d') <-> g_scale d * (exp b - exp a) = 2).
Proof. exact logn_normalized_density. Qed.
Print Assumptions C130_lognormal_density.

Theorem C130_lognormal_density_refuted : exists d, 0 < g_scale d /\ 0 < g_cov d /\ g_trunc d <> None /\
  is_logn_density (g_mean d) (g_cov d) (g_off d) (g_scale d) (logn_density d) /\
  ~ is_logn_density (g_mean (logn_normalized d)) (g_cov (logn_normalized d)) (g_off (logn_normalized d)) (g_scale (logn_normalized d)) (logn_density (logn_normalized d)).
Proof. exact logn_normalized_refuted. Qed.
Print Assumptions C130_lognormal_density_refuted.
