(** Generated by tools/mkprops.py from tools/props/OptProps.spec: the property theorems. *)
Require Import Reals List Bool Arith ZArith Sorted.
From Verif Require Import RVec Num Sums DomModel DomSpec DomProofs DomExamples DomMoreModel DomMoreExamples SweepProofs HullProofs HullIneqProofs OptModel OptProofs SeqProofs.
Import ListNotations.
Local Open Scope R_scope.

(** C48: Armijo line search *)
Theorem C48_armijo : forall f traj g p x0 bt ftol maxiter fx0 x a fx,
  linesearch_armijo f traj g p x0 bt ftol maxiter fx0 = Some (x, a, fx) ->
  dot g p <= 0 /\ exists v, (match fx0 with Some w => Some w | None => f x0 end) = Some v /\
  ((x = x0 /\ a = 0 /\ fx = v /\ forall j, (j < maxiter)%nat -> ~ accepts f traj p x0 ftol (dot g p) (norm2 v) (bt ^ j)) \/
   (exists k, (k < maxiter)%nat /\ a = bt ^ k /\ traj x0 p a = Some x /\ f x = Some fx /\
      norm2 fx < norm2 v + a * ftol * dot g p /\ forall j, (j < k)%nat -> ~ accepts f traj p x0 ftol (dot g p) (norm2 v) (bt ^ j))).
Proof. exact armijo_correct. Qed.
Print Assumptions C48_armijo.

Theorem C48_decrease : forall f traj g p x0 bt ftol maxiter v x a fx, 0 <= bt -> 0 <= ftol -> f x0 = Some v ->
  linesearch_armijo f traj g p x0 bt ftol maxiter None = Some (x, a, fx) ->
  f x = Some fx /\ norm2 fx <= norm2 v /\ (x = x0 /\ fx = v \/ norm2 fx < norm2 v).
Proof. exact armijo_decrease. Qed.
Print Assumptions C48_decrease.

Example C48_case : default_ls ex_f [1] [-1] [1] = Some ([0], 1, [0]).
Proof. exact ex_ls1. Qed.

(** C49: Gauss-Newton is monotone and always has a status *)
Theorem C49_monotone : forall n f F gnsolver ls tol0 tolx verbose maxiter x0 x i,
  (forall g d x xn a fn, ls g d x = Some (xn, a, fn) -> fn = f xn) ->
  gauss_newton n f F gnsolver ls verbose tol0 tolx maxiter x0 = Some (x, i) -> norm2 (f x) <= norm2 (f x0).
Proof. exact gn_monotone_all. Qed.
Print Assumptions C49_monotone.

Theorem C49_status : forall n f F gnsolver ls tol0 tolx verbose maxiter x0 x i,
  gauss_newton n f F gnsolver ls verbose tol0 tolx maxiter x0 = Some (x, i) -> exists k, i = Some k /\ (k <= 4)%nat.
Proof. exact gn_status_all. Qed.
Print Assumptions C49_status.

Theorem C49_default_total : forall n f F gnsolver verbose tol0 tolx maxiter x0, (forall A y, gnsolver A y <> None) ->
  exists x k, gauss_newton n f F gnsolver (default_ls f) verbose tol0 tolx maxiter x0 = Some (x, Some k) /\ (k <= 4)%nat /\
    norm2 (f x) <= norm2 (f x0).
Proof. exact gn_default_total. Qed.
Print Assumptions C49_default_total.

Example C49_case : gauss_newton 1 ex_f ex_F ex_solver (default_ls ex_f) true (/ 10000000000) (/ 1000000000000) 1 [1] = Some ([0], Some O).
Proof. exact ex_gn_case. Qed.

(** C50: the result depends on verbosity: without printing the gradient norm is never updated *)
Theorem C50_verbose_gradient : forall n f F gnsolver tol0 tolx maxiter x0 x,
  gauss_newton n f F gnsolver (default_ls f) true tol0 tolx maxiter x0 = Some (x, Some O) ->
  norm2 (tmv n (F x) (f x)) <= gn_tol tol0 (norm2 (tmv n (F x0) (f x0))).
Proof. exact gn_converged_gradient. Qed.
Print Assumptions C50_verbose_gradient.

Theorem C50_silent_never_converges : forall n f F gnsolver ls tol0 tolx maxiter x0 x i,
  tol0 < 1 -> / 100000000000000 < norm2 (tmv n (F x0) (f x0)) ->
  gauss_newton n f F gnsolver ls false tol0 tolx maxiter x0 = Some (x, i) -> i <> Some O.
Proof. exact gn_silent_all. Qed.
Print Assumptions C50_silent_never_converges.

Example C50_case : / 10000000000 < 1 /\ / 100000000000000 < norm2 (tmv 1 (ex_F [1]) (ex_f [1])) /\
  exists x i, gauss_newton 1 ex_f ex_F ex_solver (default_ls ex_f) false (/ 10000000000) (/ 1000000000000) 1 [1] = Some (x, i).
Proof. exact ex_silent_case. Qed.

Theorem C50_refuted : exists n f F gnsolver tol0 tolx maxiter x0 xs i xv j, tol0 < 1 /\
  gauss_newton n f F gnsolver (default_ls f) false tol0 tolx maxiter x0 = Some (xs, i) /\
  gauss_newton n f F gnsolver (default_ls f) true tol0 tolx maxiter x0 = Some (xv, j) /\ i <> j.
Proof. exact verbosity_refuted. Qed.
Print Assumptions C50_refuted.

(** C51: minimax *)
Theorem C51_monotone : forall f traj solve carm tdx tdf btmax maxiter x0 r, 0 <= carm ->
  minimax f traj solve carm tdx tdf btmax maxiter x0 = Some r ->
  StronglySorted (fun a b => vmax (f a) <= vmax (f b)) r /\ (exists new, r = new ++ [x0] /\ (length new <= maxiter)%nat) /\
  vmax (f (hd x0 r)) <= vmax (f x0).
Proof. exact minimax_monotone. Qed.
Print Assumptions C51_monotone.

Theorem C51_feasible : forall f d solve carm tdx tdf btmax maxiter x0 r, 0 <= carm -> dom_wf d -> member d x0 ->
  (forall x fx t D px pt, member d x -> solve x fx t D = QStep px pt -> length px = length x /\ member d (vadd x px)) ->
  minimax f trajectory_linear solve carm tdx tdf btmax maxiter x0 = Some r -> Forall (member d) r.
Proof. exact minimax_feasible. Qed.
Print Assumptions C51_feasible.

Example C51_case : exists r, minimax (fun x => x) trajectory_linear (fun x fx t D => QStep [-1] (-1)) (1/10) (/100) (/100) 3 1 [2] = Some r /\ r = [[1]; [2]].
Proof. exact ex_minimax_case. Qed.

Example C51_contract_case : member ex_half [1; 2] /\ dom_wf ex_half /\ forall x, member ex_half x -> length [1; 1] = length x /\ member ex_half (vadd x [1; 1]).
Proof. exact ex_step_contract. Qed.

(** C52: sequential LP *)
Theorem C52_correct_partial : forall f nm traj solve lb ub tdx tobj verbose btmax maxiter x0 s (P : vec -> Prop), P x0 ->
  (forall x fx D p, P x -> solve x fx D = LOpt p -> P (traj x p 1)) ->
  sequential_lp f nm traj solve lb ub tdx tobj verbose btmax maxiter x0 = Some s ->
  objfun nm (f (l_x s)) <= objfun nm (f x0) /\ P (l_x s) /\
  (l_x s = x0 \/ objfun nm (f (l_x s)) < objfun nm (f x0) /\ near_bounds lb ub (/ 10000000000) (f (l_x s))) /\
  exists new, l_hist s = new ++ [x0] /\ (length new <= maxiter)%nat /\ l_x s = hd x0 (l_hist s) /\ Forall P (l_hist s) /\
    StronglySorted (fun a b => objfun nm (f a) < objfun nm (f b)) (l_hist s) /\ Forall (fun y => near_bounds lb ub (/ 10000000000) (f y)) new.
Proof. exact seqlp_correct. Qed.
Print Assumptions C52_correct_partial.

Theorem C52_feasible : forall f nm d solve lb ub tdx tobj verbose btmax maxiter x0 s, member d x0 ->
  (forall x fx D p, member d x -> solve x fx D = LOpt p -> length p = length x /\ member d (vadd x p)) ->
  sequential_lp f nm trajectory_linear solve lb ub tdx tobj verbose btmax maxiter x0 = Some s -> Forall (member d) (l_hist s) /\ member d (l_x s).
Proof. exact seqlp_feasible. Qed.
Print Assumptions C52_feasible.

Example C52_contract_case : member ex_half [1; 2] /\ dom_wf ex_half /\ forall x, member ex_half x -> length [1; 1] = length x /\ member ex_half (vadd x [1; 1]).
Proof. exact ex_step_contract. Qed.

Theorem C52_objective : forall fx,
  objfun N1 fx = rsum (length fx) (fun i => Rabs (vget fx i)) /\
  objfun N2 fx = sqrt (rsum (length fx) (fun i => vget fx i * vget fx i)) /\
  ((forall i, (i < length fx)%nat -> Rabs (vget fx i) <= objfun NInf_ fx) /\ (fx <> [] -> exists i, (i < length fx)%nat /\ objfun NInf_ fx = Rabs (vget fx i))) /\
  objfun NHinge fx = rsum (length fx) (fun i => if Rlt_dec 0 (vget fx i) then vget fx i else 0) /\
  objfun NNone fx = vget fx 0.
Proof. exact objfun_spec. Qed.
Print Assumptions C52_objective.

Example C52_objective_case : objfun NHinge [2; -3; 1] = 3 /\ objfun N1 [2; -3] = 5.
Proof. exact ex_objfun. Qed.

Theorem C52_stuck : forall f nm traj solve lb ub tdx tobj btmax maxiter x0,
  (forall y, near_bounds lb ub (/ 10000000000) (f y) -> objfun nm (f x0) <= objfun nm (f y)) ->
  exists s, sequential_lp f nm traj solve lb ub tdx tobj false btmax maxiter x0 = Some s /\ l_x s = x0.
Proof. exact seqlp_stuck. Qed.
Print Assumptions C52_stuck.

Example C52_stuck_case : forall y, near_bounds (Some [1]) None (/ 10000000000) y -> objfun N2 [0] <= objfun N2 y.
Proof. exact ex_stuck_case. Qed.

Theorem C52_bounds_refuted : forall solve tdx tobj btmax maxiter, exists s,
  sequential_lp (fun x => x) N2 trajectory_linear solve (Some [1]) None tdx tobj false btmax maxiter [0] = Some s /\
  l_x s = [0] /\ ~ near_bounds (Some [1]) None (/ 2) (l_x s) /\ near_bounds (Some [1]) None 0 [1].
Proof. exact seqlp_bounds_refuted. Qed.
Print Assumptions C52_bounds_refuted.

Theorem C52_constraint_solver_exact : forall a fx tr, 0 < a ->
  match nl_solve [a] fx tr with
  | LOpt [p] => nl_lin a p /\ nl_ok tr p /\ forall q, nl_lin a q -> nl_ok tr q -> - a - p <= - a - q
  | LBad => forall q, nl_lin a q -> nl_ok tr q -> False
  | _ => False
  end.
Proof. exact nl_solve_exact. Qed.
Print Assumptions C52_constraint_solver_exact.

Theorem C52_constraint_refuted : forall tdx tobj btmax maxiter, 0 <= tdx -> tdx < 3/5 -> (1 <= btmax)%nat -> (1 <= maxiter)%nat -> exists s,
  sequential_lp (vscale (-1)) NNone trajectory_linear nl_solve None None tdx tobj false btmax maxiter [1] = Some s /\ l_x s = [5/2] /\
  1 * 1 <= 4 /\ 4 < 5/2 * (5/2).
Proof. exact seqlp_constraint_refuted. Qed.
Print Assumptions C52_constraint_refuted.

Theorem C52_verbose_refuted : forall f nm traj lb ub tdx tobj btmax maxiter x0, (1 <= btmax)%nat -> (1 <= maxiter)%nat ->
  sequential_lp f nm traj (fun _ _ _ => LBad) lb ub tdx tobj true btmax maxiter x0 = None /\
  exists s, sequential_lp f nm traj (fun _ _ _ => LBad) lb ub tdx tobj false btmax maxiter x0 = Some s /\ l_x s = x0.
Proof. exact seqlp_verbose_refuted. Qed.
Print Assumptions C52_verbose_refuted.

(** C72: Gauss-Newton on affine residuals *)
Theorem C72_affine_partial : forall A b n x p bt ftol maxiter, Forall (fun r => length r = n) A -> length b = length A -> length x = n -> length p = n ->
  0 < ftol -> (1 <= maxiter)%nat ->
  dot (mv A p) (vadd (mv A p) (affine A b x)) = 0 -> mv A p <> vzero (length A) ->
  norm2 (affine A b x) < 1 / (2 * ftol) ->
  linesearch_armijo (fun y => Some (affine A b y)) (fun x p t => Some (trajectory_linear x p t)) (tmv n A (affine A b x)) p x bt ftol maxiter None =
  Some (vadd x (vscale 1 p), 1, affine A b (vadd x (vscale 1 p))).
Proof. exact affine_step_partial. Qed.
Print Assumptions C72_affine_partial.

Example C72_case : Forall (fun r => length r = 1%nat) [[2]; [1]] /\ dot (mv [[2]; [1]] [-1]) (vadd (mv [[2]; [1]] [-1]) (affine [[2]; [1]] [0; 3] [3/5 + 1])) = 0 /\
  mv [[2]; [1]] [-1] <> vzero 2 /\ norm2 (affine [[2]; [1]] [0; 3] [3/5 + 1]) < 1 / (2 * / 10000).
Proof. exact ex_affine_case. Qed.

Theorem C72_refuted : forall bt maxiter, 0 <= bt ->
  linesearch_armijo (fun y => Some (ex_f y)) (fun x p t => Some (trajectory_linear x p t)) (tmv 1 (ex_F [big]) (ex_f [big])) [- big] [big] bt (/ 10000) maxiter None =
  Some ([big], 0, [big]) /\ ex_f (trajectory_linear [big] [- big] 1) = [0].
Proof. exact affine_step_refuted. Qed.
Print Assumptions C72_refuted.

Theorem C72_gn_refuted : forall verbose tol0 tolx maxiter, exists i,
  gauss_newton 1 ex_f ex_F ex_solver (default_ls ex_f) verbose tol0 tolx maxiter [big] = Some ([big], i).
Proof. exact gn_large_refuted. Qed.
Print Assumptions C72_gn_refuted.
