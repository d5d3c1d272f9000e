(** Model of forward_propagation_pdf and RidgeChanceConstraint.random_ridge_pdf, psdr/duu.py 7-19 and 81-92, on the sample of ridge values. *)
Require Import Reals List Bool Arith.
From Verif Require Import RVec Num DomMoreModel LipModel SampModel MiniModel.
Import ListNotations.
Local Open Scope R_scope.

(** the 'linear' kernel of sklearn.neighbors.KernelDensity, normalized in one dimension *)
Definition lin_kernel (h d : R) : R := if Rltb (Rabs d) h then (1 - Rabs d / h) / h else 0.
(** exp(kde.score_samples(t)): the mean of the kernels around the sample points, duu.py 15-18, 87-91 *)
Definition kde (h : R) (y : vec) (t : R) : R := vsum (map (fun a => lin_kernel h (t - a)) y) / INR (length y).
(** the functions: percentiles, bandwidth, grid and density; None: percentile of an empty sample, or KernelDensity's ValueError for a bandwidth that is not positive *)
Definition ridge_pdf (y : vec) (npoints : nat) : option (vec * vec) :=
  match percentile y 0, percentile y 25, percentile y 75, percentile y 100 with
  | Some p0, Some p25, Some p75, Some p100 =>
      let h := (p75 - p25) / 10 in
      if Rltb 0 h then let xx := linspace p0 p100 npoints in Some (xx, map (kde h y) xx) else None
  | _, _, _, _ => None
  end.
