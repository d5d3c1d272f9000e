(** Generated by tools/mkprops.py from tools/props/ChkProps.spec: the property theorems. *)
Require Import Reals List Bool Arith ZArith.
From Verif Require Import RVec Num DomMoreModel FunModel FunProofs LipModel ChkModel ChkProofs ChkMore.
Import ListNotations.
Local Open Scope R_scope.

Local Open Scope R_scope.

(** C111: check_derivative *)
Theorem C111_value : forall x obj grad hvec, hvec <> [] -> (forall h, In h hvec -> h <> 0) ->
  exists v, check_derivative x obj grad hvec = Some (Fin v) /\ 0 <= v /\
    (forall i, (i < length x)%nat -> exists h, In h hvec /\ Rabs (cdiff obj x i h - vget (grad x) i) <= v) /\
    (v = 0 \/ exists i, (i < length x)%nat /\ forall h, In h hvec -> v <= Rabs (cdiff obj x i h - vget (grad x) i)).
Proof. exact check_derivative_value. Qed.
Print Assumptions C111_value.

Theorem C111_complete : forall x obj grad hvec H C h, smooth_lines obj x H C (grad x) ->
  (forall h, In h hvec -> 0 < h <= H) -> In h hvec -> 0 <= C ->
  exists v, check_derivative x obj grad hvec = Some (Fin v) /\ 0 <= v <= C * (h * h) / 6.
Proof. exact check_derivative_complete. Qed.
Print Assumptions C111_complete.

Theorem C111_sound : forall x obj grad hvec H C G v, smooth_lines obj x H C G -> hvec <> [] ->
  (forall h, In h hvec -> 0 < h <= H) -> 0 <= C -> check_derivative x obj grad hvec = Some (Fin v) ->
  forall i, (i < length x)%nat -> Rabs (vget (grad x) i - vget G i) <= v + C * (H * H) / 6.
Proof. exact check_derivative_sound. Qed.
Print Assumptions C111_sound.

Theorem C111_exact : forall x obj grad hvec H G, smooth_lines obj x H 0 G -> hvec <> [] ->
  (forall h, In h hvec -> 0 < h <= H) ->
  exists v, check_derivative x obj grad hvec = Some (Fin v) /\ 0 <= v /\
    (forall i, (i < length x)%nat -> Rabs (vget (grad x) i - vget G i) <= v) /\
    (v = 0 \/ exists i, (i < length x)%nat /\ v = Rabs (vget (grad x) i - vget G i)).
Proof. exact check_derivative_exact. Qed.
Print Assumptions C111_exact.

Theorem C111_steps : length hvec_default = 100%nat /\ (forall h, In h hvec_default -> / 10 ^ 14 <= h <= / 10) /\
  In (/ 10 ^ 14) hvec_default /\ In (/ 10) hvec_default.
Proof. exact hvec_default_spec. Qed.
Print Assumptions C111_steps.

Theorem C111_default : forall x obj grad C G, smooth_lines obj x (/ 10) C G -> 0 <= C ->
  exists v, check_derivative x obj grad hvec_default = Some (Fin v) /\
    (forall i, (i < length x)%nat -> Rabs (vget (grad x) i - vget G i) <= v + C / 600) /\
    ((forall i, (i < length x)%nat -> vget (grad x) i = vget G i) -> v <= C * (/ 10 ^ 14 * / 10 ^ 14) / 6).
Proof. exact check_derivative_default. Qed.
Print Assumptions C111_default.

Theorem C111_tolerance_refuted : exists x obj grad G, partials obj x G /\ length (grad x) = length x /\
  check_derivative x obj grad hvec_default = Some (Fin 0) /\ exists i, (i < length x)%nat /\ / 100 <= Rabs (vget (grad x) i - vget G i).
Proof. exact check_derivative_refuted. Qed.
Print Assumptions C111_tolerance_refuted.

Example C111_case : check_derivative [1; 2] ex_q (fun _ => [8; 4]) hvec_default = Some (Fin 3) /\
  check_derivative [1; 2] ex_q (fun _ => [8; 1]) hvec_default = Some (Fin 0).
Proof. exact check_derivative_case. Qed.

(** C112: check_gradient and check_jacobian *)
Theorem C112_is_derivative : forall x residual jac hvec, (forall h, In h hvec -> h <> 0) ->
  check_gradient x residual jac hvec = check_derivative x (half_sq residual) (fun y => jt_r (jac y) (residual y) (length y)) hvec.
Proof. exact check_gradient_is. Qed.
Print Assumptions C112_is_derivative.

Theorem C112_gradient : forall residual x J, jacobian residual x J -> partials (half_sq residual) x (jt_r J (residual x) (length x)).
Proof. exact jt_r_gradient. Qed.
Print Assumptions C112_gradient.

Theorem C112_gradient_refuted : exists x residual jac G, jacobian residual x G /\ jac x <> G /\
  check_gradient x residual jac hvec_default = Some (Fin 0).
Proof. exact check_gradient_refuted. Qed.
Print Assumptions C112_gradient_refuted.

Example C112_gradient_case : partials (half_sq ex_res) [3; 1; 4] (jt_r (ex_jgood []) (ex_res [3; 1; 4]) 3) /\
  jt_r (ex_jgood []) (ex_res [3; 1; 4]) 3 = [3; 0; 4].
Proof. exact check_gradient_case. Qed.

Theorem C112_value : forall x residual jac hvec, hvec <> [] -> (forall h, In h hvec -> h <> 0) ->
  (forall y, length y = length x -> length (residual y) = length (jac x)) ->
  (forall i, (i < length x)%nat -> 0 < norm2 (jcol (jac x) i)) ->
  exists v, check_jacobian x residual jac hvec = Some (Fin v) /\ 0 <= v /\
    (forall i, (i < length x)%nat -> exists h, In h hvec /\ jdev residual (jac x) x i h <= v * norm2 (jcol (jac x) i)) /\
    (v = 0 \/ exists i, (i < length x)%nat /\ forall h, In h hvec -> v * norm2 (jcol (jac x) i) <= jdev residual (jac x) x i h).
Proof. exact check_jacobian_value. Qed.
Print Assumptions C112_value.

Theorem C112_sound : forall x residual jac hvec H C G v, smooth_jac residual x H C G -> hvec <> [] ->
  (forall h, In h hvec -> 0 < h <= H) -> 0 <= C -> length G = length (jac x) ->
  (forall y, length y = length x -> length (residual y) = length (jac x)) ->
  (forall i, (i < length x)%nat -> 0 < norm2 (jcol (jac x) i)) ->
  check_jacobian x residual jac hvec = Some (Fin v) ->
  forall k i, (k < length G)%nat -> (i < length x)%nat ->
  Rabs (vget (nth k (jac x) []) i - vget (nth k G []) i) <= v * norm2 (jcol (jac x) i) + C * (H * H) / 6.
Proof. exact check_jacobian_sound. Qed.
Print Assumptions C112_sound.

Theorem C112_complete : forall x residual jac hvec H C h, smooth_jac residual x H C (jac x) ->
  (forall h, In h hvec -> 0 < h <= H) -> In h hvec -> 0 <= C ->
  (forall y, length y = length x -> length (residual y) = length (jac x)) ->
  (forall i, (i < length x)%nat -> 0 < norm2 (jcol (jac x) i)) ->
  exists v, check_jacobian x residual jac hvec = Some (Fin v) /\ 0 <= v /\
    (v = 0 \/ exists i, (i < length x)%nat /\ v * norm2 (jcol (jac x) i) <= sqrt (INR (length (jac x))) * (C * (h * h) / 6)).
Proof. exact check_jacobian_complete. Qed.
Print Assumptions C112_complete.

Theorem C112_masked : forall x residual jac1 jac2 hvec k, hvec <> [] -> (forall h, In h hvec -> h <> 0) ->
  (k < length x)%nat -> (forall y, length y = length x -> length (residual y) = length (jac1 x)) -> length (jac2 x) = length (jac1 x) ->
  (forall i, (k <= i < length x)%nat -> jcol (jac1 x) i = jcol (jac2 x) i) ->
  norm2 (jcol (jac1 x) k) = 0 -> (forall h, residual (step_up x k h) = residual x) ->
  check_jacobian x residual jac1 hvec = check_jacobian x residual jac2 hvec.
Proof. exact check_jacobian_masked. Qed.
Print Assumptions C112_masked.

Theorem C112_jacobian_refuted : exists x residual jac G, jacobian residual x G /\ length (jac x) = length G /\
  check_jacobian x residual jac hvec_default = Some (Fin 0) /\ exists k i, (k < length G)%nat /\ (i < length x)%nat /\ vget (nth k (jac x) []) i <> vget (nth k G []) i.
Proof. exact check_jacobian_refuted. Qed.
Print Assumptions C112_jacobian_refuted.

Example C112_case : exists v, check_jacobian [2] (fun y => [3 * vget y 0; 4 * vget y 0]) (fun _ => [[3]; [4]]) hvec_default = Some (Fin v) /\ v = 0.
Proof. exact check_jacobian_case. Qed.

(** C113: check_hessian *)
Theorem C113_value : forall x obj hess hvec, hvec <> [] -> (forall h, In h hvec -> h <> 0) ->
  exists v, check_hessian_steps x obj hess hvec = Fin v /\ 0 <= v /\
    (forall i j, (i < length x)%nat -> (j < length x)%nat -> exists h, In h hvec /\ Rabs (mixed obj x i j h - vget (nth i (hess x) []) j) <= v) /\
    (v = 0 \/ exists i j, (i < length x)%nat /\ (j < length x)%nat /\ forall h, In h hvec -> v <= Rabs (mixed obj x i j h - vget (nth i (hess x) []) j)).
Proof. exact check_hessian_value. Qed.
Print Assumptions C113_value.

Theorem C113_steps : length hvec_hess = 10%nat /\ (forall h, In h hvec_hess -> / 10 ^ 7 <= h <= / 10) /\
  In (/ 10 ^ 7) hvec_hess /\ In (/ 10) hvec_hess.
Proof. exact hvec_hess_spec. Qed.
Print Assumptions C113_steps.

Theorem C113_complete : forall x obj hess C, smooth_hess obj x (/ 10) C (hess x) -> 0 <= C ->
  exists v, check_hessian x obj hess = Fin v /\ 0 <= v <= 2 * C * / 10 ^ 7.
Proof. exact check_hessian_complete. Qed.
Print Assumptions C113_complete.

Theorem C113_sound : forall x obj hess C G v, smooth_hess obj x (/ 10) C G -> 0 <= C -> check_hessian x obj hess = Fin v ->
  forall i j, (i < length x)%nat -> (j < length x)%nat -> Rabs (vget (nth i (hess x) []) j - vget (nth i G []) j) <= v + C / 5.
Proof. exact check_hessian_sound. Qed.
Print Assumptions C113_sound.

Example C113_case : check_hessian [5; 7] (fun y => vget y 0 * vget y 1) (fun _ => [[0; 1]; [1; 0]]) = Fin 0 /\
  exists v, check_hessian [5; 7] (fun y => vget y 0 * vget y 1) (fun _ => [[0; 1]; [4; 0]]) = Fin v /\ 3 <= v.
Proof. exact check_hessian_case. Qed.
