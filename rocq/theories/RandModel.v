(** Model of the random domains: UniformDomain (uniform.py), NormalDomain (normal.py) and LogNormalDomain (lognormal.py):
    construction, densities and normalized domains.  Names and solver arguments are left out; a single row of X is evaluated. *)
Require Import Reals List Bool Arith.
From Verif Require Import RVec Num DomModel DomMoreModel PredModel.
Import ListNotations.
Local Open Scope R_scope.

(** np.prod *)
Definition vprod (x : vec) : R := fold_right Rmult 1 x.
(** UniformDomain._pdf, uniform.py 12-14; [box_of]-like bounds are finite *)
Definition unif_pdf (d : dom) (l u : vec) (tol : R) (x : vec) : R :=
  (if inside1 d x tol then 1 else 0) / vprod (zipw (fun a b => b - a) l u).

(** NormalDomain: the attributes set by __init__, normal.py 47-94 *)
Record ndom := mkNdom { n_mean : vec; n_cov : mat; n_L : mat; n_Linv : mat; n_trunc : option R; n_clip : option R }.

Section Normal.
  Variable chol : mat -> mat.          (* scipy.linalg.cholesky(., lower = True) *)
  Variable tinv : mat -> mat.          (* scipy.linalg.solve_triangular(., eye, lower = True) *)
  Variable isf : R -> nat -> R.        (* scipy.stats.chi2.isf *)
  Variable det : mat -> R.             (* scipy.linalg.det *)

  (** normal.py 68-87; the shape and symmetry assertions (62-66) are hypotheses of the theorems *)
  Definition normal_new (mean : vec) (cov : mat) (truncate : option R) : ndom :=
    let L := chol cov in
    mkNdom mean cov L (tinv L) truncate (match truncate with Some t => Some (isf t (length mean)) | None => None end).

  (** the constraint data, normal.py 75-92, 126-147 *)
  Definition ndom_dom (d : ndom) : dom := normal_dom (n_mean d) (n_Linv d) (n_clip d).

  (** normalize of a NormalDomain: the slopes of euclidean.py 1082-1087 and the redefined centre, normal.py 113-116 *)
  Definition normal_normalize (nlb nub : list num) (d : ndom) (x : vec) : vec := mv (diag (nslopes nlb nub)) (vsub x (n_mean d)).

  (** _normalized_domain, normal.py 118-123 *)
  Definition normal_normalized (nlb nub : list num) (d : ndom) : ndom :=
    let D := diag (nslopes nlb nub) in let m := length (n_mean d) in
    normal_new (normal_normalize nlb nub d (n_mean d)) (matmul (matmul D (n_cov d) m) D m) (n_trunc d).

  (** _pdf, normal.py 152-163 *)
  Definition normal_pdf (d : ndom) (tol : R) (x : vec) : R :=
    let d2 := norm2sq (mv (n_Linv d) (vsub x (n_mean d))) in
    let p := exp (- (1 / 2) * d2) / sqrt ((2 * PI) ^ length (n_mean d) * Rabs (det (n_cov d))) in
    match n_trunc d with
    | None => p
    | Some t => p / (1 - t) * (if inside1 (ndom_dom d) x tol then 1 else 0)
    end.

  (** the transformation of standard normal draws, normal.py 108-110 *)
  Definition normal_point (d : ndom) (xi : vec) : vec := vadd (n_mean d) (mv (n_L d) xi).
End Normal.

(** corner of a NormalDomain with an exact solver, euclidean.py 265-307: the only constraint of the program is the ellipsoid with Ls_norm, ys_norm, rhos_norm
    (euclidean.py 989-1001, linquad.py 287-291; NormalDomain has no finite bounds and no linear constraints) for the redefined centre (normal.py 113-116);
    the result is unnormalized with the same centre (1107-1111).  Without a constraint the domain is reported as unbounded (297). *)
Definition normal_feasible (nlb nub : list num) (d : ndom) (z : vec) : Prop :=
  length z = length (n_mean d) /\ forall c, n_clip d = Some c -> norm2 (vsub (mv (A_norm nlb nub (n_Linv d)) z) (mv (A_norm nlb nub (n_Linv d)) (vsub (n_mean d) (n_mean d)))) <= sqrt c.
Definition normal_unnormalize (nlb nub : list num) (d : ndom) (z : vec) : vec := vadd (mv (diag (uslopes nlb nub)) z) (n_mean d).
Definition normal_outcome (nlb nub : list num) (d : ndom) (p : vec) (a : answer) : Prop :=
  let obj z := dot (mv (diag (uslopes nlb nub)) p) z in
  match a with
  | Pt x => n_clip d <> None /\ exists z, (normal_feasible nlb nub d z /\ forall w, normal_feasible nlb nub d w -> obj w <= obj z) /\ x = normal_unnormalize nlb nub d z
  | EmptyExc => forall z, ~ normal_feasible nlb nub d z
  | UnboundedExc => n_clip d = None \/ forall B, exists z, normal_feasible nlb nub d z /\ B < obj z
  end.

(** LogNormalDomain: offset, scaling, truncate with the normalization bounds of the normal domain, lognormal.py 36-58 *)
Record logn := mkLogn { g_mean : R; g_cov : R; g_off : R; g_scale : R; g_trunc : option (R * R) }.
(** normalization of the one coordinate: euclidean.py 1082-1105 *)
Definition logn_bounds (d : logn) : num * num := (logn_lb (g_off d) (g_scale d) (g_trunc d), logn_ub (g_off d) (g_scale d) (g_trunc d)).
(** norm_lb, norm_ub of a box, euclidean.py 1030-1034, 1060-1064 *)
Definition logn_nb (d : logn) : num * num :=
  let (l, u) := logn_bounds d in (norm_lb_i l u NInf, norm_ub_i l u PInf).
Definition logn_normalize (d : logn) (x : R) : R := let (l, u) := logn_nb d in nslope l u * (x - center_i l u).
(** _normalized_domain, lognormal.py 67-75 *)
Definition logn_normalized (d : logn) : logn :=
  match g_trunc d with
  | Some _ => let (l, u) := logn_nb d in
              mkLogn (g_mean d) (g_cov d) (nslope l u * (g_off d - center_i l u)) (nslope l u * g_scale d) (g_trunc d)
  | None => d
  end.
