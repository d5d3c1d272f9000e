(** Generated by tools/mkprops.py from tools/props/VarArnProps.spec: the property theorems. *)
Require Import Reals List Bool Arith ZArith.
From Verif Require Import RVec Sums Num DomModel DomMoreModel SweepProofs HullProofs Deriv BasisModel IndexProofs PolyProofs MatLib SpecProofs GrassLib LipModel RidgeModel RidgeProofs SubModel TrajProofs PolySpan VarproLib VarproProofs ArnoldiProofs ArnoldiMoreProofs PolyfitModel PolyfitProofs LsqAlg VarproCases VarArnModel VarArnProofs VarArnDeriv VarArnMain VarArnCases.
Import ListNotations.
Local Open Scope R_scope.

Local Open Scope R_scope.

(** C135: variable projection with the Arnoldi basis *)
Theorem C135_best : forall p m us X f, va_pre p m us X f ->
  exists r c, va_residual p us X f = Some r /\ length r = length X /\ (forall s, (s < length X)%nat -> vget r s = vget f s - poly_of p (length us) c (mv us (nth s X []))) /\
    forall c', norm2sq r <= rsum (length X) (fun s => (vget f s - poly_of p (length us) c' (mv us (nth s X []))) ^ 2).
Proof. exact arn_residual_best. Qed.
Print Assumptions C135_best.

Theorem C135_same_residual : forall p m us X f B' n' us' c', va_pre p m us X f -> basis_ok B' n' -> tb_deg B' = p -> length us' = n' -> Forall (fun u => length u = m) us' -> same_span m us us' ->
  ls_opt (length (indices B')) (vp_V B' us' X) f c' -> va_residual p us X f = Some (vp_residual (vp_V B' us' X) f c').
Proof. exact arn_same_residual. Qed.
Print Assumptions C135_same_residual.

Theorem C135_same_subspace : forall p m us us' X f, va_pre p m us X f -> va_pre p m us' X f -> same_span m us us' -> va_residual p us X f = va_residual p us' X f.
Proof. exact arn_same_subspace. Qed.
Print Assumptions C135_same_subspace.

Example C135_residual_case : forall a, a <> 0 -> va_pre 1 2 [[a; 0]] exX exF /\ same_span 2 [[a; 0]] [[1; 0]] /\ va_residual 1 [[a; 0]] exX exF = Some [4; 4; -4; -4].
Proof. exact arn_residual_case. Qed.

Theorem C135_jacobian : forall p m us X f, va_pre p m us X f -> exists J, va_jac p m us X f = Some J /\ length J = (m * length us)%nat /\
  forall ds a, length ds = length us -> Forall (fun u => length u = m) ds -> (a < length X)%nat ->
  derivable_pt_lim (fun t => match va_residual p (line us ds t) X f with Some r => vget r a | None => 0 end) 0 (vget (lincomb (length X) J (flat m ds)) a).
Proof. exact arn_jacobian. Qed.
Print Assumptions C135_jacobian.

Theorem C135_same_jacobian : forall p m us X f B ys s zs c, va_pre p m us X f -> basis_ok B (length us) -> tb_deg B = p ->
  svd_mat (length X) (length (indices B)) (vp_V B us X) ys s zs -> (forall k, (k < length s)%nat -> vget s k <> 0) -> ls_opt (length (indices B)) (vp_V B us X) f c ->
  va_jac p m us X f = Some (vp_jac B us m X ys s zs c (vp_residual (vp_V B us X) f c)).
Proof. exact arn_same_jacobian. Qed.
Print Assumptions C135_same_jacobian.

Example C135_jacobian_case : va_pre 1 2 [[1; 0]] exX exF /\ va_jac 1 2 [[1; 0]] exX exF = Some [[0; 0; 0; 0]; [1; -7; 7; -1]] /\
  derivable_pt_lim (fun t => match va_residual 1 (line [[1; 0]] [[0; 1]] t) exX exF with Some r => vget r 1 | None => 0 end) 0 (-7) /\
  basis_ok exB 1 /\ svd_mat (length exX) (length (indices exB)) (vp_V exB [[1; 0]] exX) exY exS exZ /\ (forall k, (k < length exS)%nat -> vget exS k <> 0) /\ ls_opt (length (indices exB)) (vp_V exB [[1; 0]] exX) exF (exC [[1; 0]]).
Proof. exact arn_jacobian_case. Qed.

Theorem C135_kernel : forall p m us X f ds, va_pre p m us X f -> within m us ds -> exists J, va_jac p m us X f = Some J /\ lincomb (length X) J (flat m ds) = vzero (length X).
Proof. exact arn_kernel. Qed.
Print Assumptions C135_kernel.

Example C135_kernel_case : va_pre 1 2 [[1; 0]] exX exF /\ within 2 [[1; 0]] [[5; 0]] /\ ~ within 2 [[1; 0]] [[0; 1]].
Proof. exact arn_kernel_case. Qed.

Theorem C135_breakdown : forall p m us X f, (1 <= length us)%nat -> X <> [] -> Forall (fun x => length x = m) X -> length f = length X -> ~ unisolvent p (length us) (map (mv us) X) ->
  (exists Q Rs, arnoldi (map (mv us) X) (index_set p (length us)) = Some (Q, Rs) /\ ~ no_breakdown Rs) /\ forall B, exists c, ls_opt (length (indices B)) (vp_V B us X) f c.
Proof. exact arn_breakdown. Qed.
Print Assumptions C135_breakdown.

Theorem C135_enough_refuted : exists m us us' X f, (1 <= length us)%nat /\ NoDup X /\ length f = length X /\ pr_enough m (length us) 2 (length X) = true /\ va_pre 2 m us' X f /\
  exists Q Rs, arnoldi (map (mv us) X) (index_set 2 (length us)) = Some (Q, Rs) /\ ~ no_breakdown Rs.
Proof. exact arn_enough_refuted. Qed.
Print Assumptions C135_enough_refuted.
