(** Generated by tools/mkprops.py from tools/props/PolyfitProps.spec: the property theorems. *)
Require Import Reals List Bool Arith ZArith.
From Verif Require Import RVec Sums Num BasisModel IndexProofs PolyProofs ArnoldiProofs ArnoldiMoreProofs DomMoreModel SubModel PolyfitModel PolyfitProofs LsqAlg PolyfitCases.
Import ListNotations.
Local Open Scope R_scope.

Local Open Scope R_scope.

(** C132: polyfitA and the breakdown of the Arnoldi constructions *)
Theorem C132_breakdown_arnoldi : forall X p m Q Rs, (1 <= m)%nat -> X <> [] -> Forall (fun x => length x = m) X -> arnoldi X (index_set p m) = Some (Q, Rs) ->
  (no_breakdown Rs <-> unisolvent p m X).
Proof. exact arnoldi_breakdown_iff. Qed.
Print Assumptions C132_breakdown_arnoldi.

Example C132_breakdown_arnoldi_case : exists Q Rs Q' Rs', arnoldi pf_X (index_set 1 2) = Some (Q, Rs) /\ no_breakdown Rs /\ arnoldi pf_line (index_set 1 2) = Some (Q', Rs') /\ ~ no_breakdown Rs'.
Proof. exact breakdown_arnoldi_case. Qed.

Theorem C132_breakdown_vandermonde : forall X p m Q Rs, (1 <= m)%nat -> X <> [] -> Forall (fun x => length x = m) X -> vandermonde_arnoldi X p m = Some (Q, Rs) ->
  (no_breakdown Rs <-> unisolvent p m X).
Proof. exact vandermonde_breakdown_iff. Qed.
Print Assumptions C132_breakdown_vandermonde.

Example C132_breakdown_case : exists Q Rs Q' Rs', vandermonde_arnoldi pf_X 1 2 = Some (Q, Rs) /\ no_breakdown Rs /\ vandermonde_arnoldi pf_line 1 2 = Some (Q', Rs') /\ ~ no_breakdown Rs'.
Proof. exact breakdown_case. Qed.

Theorem C132_least_squares : forall lstsq X p m fX fuel, (1 <= m)%nat -> X <> [] -> Forall (fun x => length x = m) X -> length fX = length X -> unisolvent p m X ->
  lstsq_ok (length (index_set p m)) lstsq -> (p < fuel)%nat ->
  exists d H c, polyfitA lstsq X p m fX = Some (d, H) /\ (forall x, length x = m -> polyvalA fuel m d H x = Some (poly_of p m c x)) /\
    (forall c', sse X fX (poly_of p m c) <= sse X fX (poly_of p m c')) /\
    (forall c', sse X fX (poly_of p m c') <= sse X fX (poly_of p m c) -> forall k, (k < length (index_set p m))%nat -> c' k = c k).
Proof. exact polyfitA_best. Qed.
Print Assumptions C132_least_squares.

Example C132_least_squares_case : exists d H, polyfitA (lsq 3) pf_X 1 2 [0; 0; 0; 1] = Some (d, H) /\ forall x y, polyvalA 2 2 d H [x; y] = Some (- (1/4) + (1/2) * x + (1/2) * y).
Proof. exact polyfitA_best_case. Qed.

Theorem C132_reproduces : forall lstsq X p m fX fuel c, (1 <= m)%nat -> X <> [] -> Forall (fun x => length x = m) X -> fX = map (poly_of p m c) X -> unisolvent p m X ->
  lstsq_ok (length (index_set p m)) lstsq -> (p < fuel)%nat ->
  exists d H, polyfitA lstsq X p m fX = Some (d, H) /\ forall x, length x = m -> polyvalA fuel m d H x = Some (poly_of p m c x).
Proof. exact polyfitA_exact. Qed.
Print Assumptions C132_reproduces.

Example C132_reproduces_case : exists d H, polyfitA (lsq 3) pf_X 1 2 [5; 7; 2; 4] = Some (d, H) /\ forall x y, polyvalA 2 2 d H [x; y] = Some (5 + 2 * x + -3 * y).
Proof. exact polyfitA_exact_case. Qed.

Theorem C132_lstsq_contract_met : forall n, lstsq_ok n (lsq n).
Proof. exact lstsq_ok_exists. Qed.
Print Assumptions C132_lstsq_contract_met.

Example C132_lstsq_case : exists a, lsq 2 [[1; 2]; [2; 4]; [0; 0]] [1; 1; 1] = Some a /\ lstsq_post 2 [[1; 2]; [2; 4]; [0; 0]] [1; 1; 1] a.
Proof. exact lstsq_case. Qed.
