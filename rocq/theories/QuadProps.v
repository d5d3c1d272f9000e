(** Generated by tools/mkprops.py from tools/props/QuadProps.spec: the property theorems. *)
Require Import Reals List Bool Arith ZArith.
From Verif Require Import RVec Num Sums DomModel DomSpec DomProofs NormProofs DomOpsProofs DomExamples DomMoreModel SweepProofs QuadProofs QuadExact.
Import ListNotations.
Local Open Scope R_scope.

Local Open Scope R_scope.

(** C126: exactness of the Gauss rule *)
Theorem C126_gauss_exact : forall n ew ev a b c F, eigh_full n (jacobi n) ew ev -> (length c <= 2 * n)%nat ->
  (forall x, derivable_pt_lim F x (polyval c x)) ->
  rule_sum (polyval c) (gauss_x ew a b) (gauss_w ev a b) = F b - F a.
Proof. exact gauss_exact. Qed.
Print Assumptions C126_gauss_exact.

Example C126_gauss_exact_case : let g := gbeta 1 in let s := sqrt (1/2) in let ew := [- g; g] in let ev := [[s; - s]; [s; s]] in
  eigh_full 2 (jacobi 2) ew ev /\ rule_sum (polyval [0; 0; 0; 1]) (gauss_x ew 3 5) (gauss_w ev 3 5) = 136.
Proof. exact gauss_exact_case. Qed.

Theorem C126_gauss_riemann : forall n ew ev a b c (pr : Riemann_integrable (polyval c) a b), eigh_full n (jacobi n) ew ev -> (length c <= 2 * n)%nat -> a <= b ->
  rule_sum (polyval c) (gauss_x ew a b) (gauss_w ev a b) = RiemannInt pr.
Proof. exact gauss_riemann. Qed.
Print Assumptions C126_gauss_riemann.

Example C126_gauss_riemann_case : exists ew ev (pr : Riemann_integrable (polyval [0; 0; 1]) 0 1), eigh_full 5 (jacobi 5) ew ev /\
  rule_sum (polyval [0; 0; 1]) (gauss_x ew 0 1) (gauss_w ev 0 1) = RiemannInt pr /\ RiemannInt pr = 1 / 3.
Proof. exact gauss_riemann_case. Qed.

Theorem C126_gauss_sharp : forall n ew ev a b, eigh_full n (jacobi n) ew ev -> a < b ->
  exists c F, length c = S (2 * n) /\ (forall x, derivable_pt_lim F x (polyval c x)) /\
    rule_sum (polyval c) (gauss_x ew a b) (gauss_w ev a b) <> F b - F a.
Proof. exact gauss_sharp. Qed.
Print Assumptions C126_gauss_sharp.

Example C126_gauss_sharp_case : eigh_full 1 (jacobi 1) [0] [[1]] /\ rule_sum (polyval [0; 0; 1]) (gauss_x [0] 0 1) (gauss_w [[1]] 0 1) = 1 / 4.
Proof. exact gauss_sharp_case. Qed.

Theorem C126_gauss_nodes : forall n ew ev a b, eigh_full n (jacobi n) ew ev -> a < b ->
  Forall (fun x => a < x < b) (gauss_x ew a b) /\ Forall (fun w => 0 < w) (gauss_w ev a b) /\ NoDup (gauss_x ew a b).
Proof. exact gauss_nodes. Qed.
Print Assumptions C126_gauss_nodes.

Theorem C126_eigenvectors_exist : forall n, exists ew ev, eigh_full n (jacobi n) ew ev.
Proof. exact eigh_full_solvable. Qed.
Print Assumptions C126_eigenvectors_exist.

Theorem C126_tensor_exact : forall q l u rules f v, length l = length u -> full_rules q l u rules -> mpoly (2 * q) (length l) f -> boxint l u f v ->
  cub f (cart_w rules) = v.
Proof. exact cub_exact. Qed.
Print Assumptions C126_tensor_exact.

Theorem C126_box_exact : forall fuel l u tol rules N q f v, ordered l u -> 0 < tol -> (1 <= q)%nat -> full_rules q l u (rules q) ->
  mpoly (2 * q) (length l) f -> boxint l u f v ->
  exists res, quadrature_gauss fuel (box_of l u) tol rules N q = Some res /\ cub f res = v.
Proof. exact quadrature_box_exact. Qed.
Print Assumptions C126_box_exact.

Example C126_box_exact_case : exists rules res, full_rules 2 [3; 0] [5; 2] rules /\
  mpoly 4 2 (fun p => vget p 0 ^ 3 * vget p 1 ^ 2) /\ boxint [3; 0] [5; 2] (fun p => vget p 0 ^ 3 * vget p 1 ^ 2) (136 * (8 / 3)) /\
  quadrature_gauss 7 (box_of [3; 0] [5; 2]) (1/10) (fun _ => rules) 4 2 = Some res /\ cub (fun p => vget p 0 ^ 3 * vget p 1 ^ 2) res = 136 * (8 / 3).
Proof. exact quadrature_box_exact_case. Qed.

Theorem C126_box_integral_exists : forall q l u f, length l = length u -> mpoly (2 * q) (length l) f -> exists v, boxint l u f v.
Proof. exact boxint_exists. Qed.
Print Assumptions C126_box_integral_exists.

Theorem C126_box_integral_unique : forall l u f v w, length l = length u -> boxint l u f v -> boxint l u f w -> v = w.
Proof. exact boxint_unique. Qed.
Print Assumptions C126_box_integral_unique.
