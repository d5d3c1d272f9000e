(** Generated by tools/mkprops.py from tools/props/BasisProps.spec: the property theorems. *)
Require Import Reals List Bool Arith ZArith Sorted Factorial.
From Verif Require Import RVec Num Sums NormProofs DomMoreModel ChebProofs Deriv BasisModel IndexProofs PolyProofs PolyMoreProofs ArnoldiProofs ArnoldiMoreProofs ArnoldiCases.
Import ListNotations.
Local Open Scope R_scope.

Local Open Scope nat_scope.

(** C21: the index set *)
Theorem C21_members : forall n d a, 1 <= d -> In a (index_set n d) <-> length a = d /\ nsum a <= n.
Proof. exact index_set_in. Qed.
Print Assumptions C21_members.

Theorem C21_no_duplicates : forall n d, 1 <= d -> NoDup (index_set n d).
Proof. exact index_set_nodup. Qed.
Print Assumptions C21_no_duplicates.

Theorem C21_sorted : forall n d, 1 <= d -> StronglySorted glt (index_set n d).
Proof. exact index_set_sorted. Qed.
Print Assumptions C21_sorted.

Theorem C21_size : forall n d, 1 <= d -> length (index_set n d) * (fact n * fact d) = fact (n + d).
Proof. exact index_set_size. Qed.
Print Assumptions C21_size.

Example C21_case : index_set 2 2 = [[0; 0]; [1; 0]; [0; 1]; [2; 0]; [1; 1]; [0; 2]].
Proof. exact index_set_case. Qed.

Local Open Scope R_scope.

(** C22: derivative matrices *)
Theorem C22_families : Forall fam_ok [monomials; legendre; chebyshev; laguerre; hermite].
Proof. exact families_ok. Qed.
Print Assumptions C22_families.

Theorem C22_V : forall B x j, (1 <= tb_dim B)%nat -> (j < length (indices B))%nat ->
  vget (Vrow B x) j = prodn (tb_dim B) (fun k => phi (tb_fam B) (ith (nth j (indices B) []) k) (scale (tb_scale B) k (vget x k))).
Proof. exact V_entries. Qed.
Print Assumptions C22_V.

Theorem C22_DV : forall B x j k, fam_ok (tb_fam B) -> length x = tb_dim B -> (j < length (indices B))%nat -> (k < tb_dim B)%nat ->
  derivable_pt_lim (fun t => vget (Vrow B (vadd x (vscale t (unit_row_ (tb_dim B) k)))) j) 0 (vget (nth j (DVrow B x) []) k).
Proof. exact DV_is_derivative. Qed.
Print Assumptions C22_DV.

Theorem C22_DDV : forall B x j k l, fam_ok (tb_fam B) -> length x = tb_dim B -> (j < length (indices B))%nat -> (k < tb_dim B)%nat -> (l < tb_dim B)%nat ->
  derivable_pt_lim (fun t => vget (nth j (DVrow B (vadd x (vscale t (unit_row_ (tb_dim B) l)))) []) k) 0 (vget (nth k (nth j (DDVrow B x) []) []) l).
Proof. exact DDV_is_derivative. Qed.
Print Assumptions C22_DDV.

Example C22_case : fam_ok (tb_fam ex_tb) /\ nth 4 (indices ex_tb) [] = [1; 1]%nat /\ vget (Vrow ex_tb [3; 2.5]) 4 = 1/4 /\
  nth 4 (DVrow ex_tb [3; 2.5]) [] = [1/4; 1/2] /\ nth 4 (DDVrow ex_tb [3; 2.5]) [] = [[0; 1/2]; [1/2; 0]].
Proof. exact ex_tb_case. Qed.

Theorem C22_poly_grad : forall B c x k, fam_ok (tb_fam B) -> length x = tb_dim B -> length c = length (indices B) -> (k < tb_dim B)%nat ->
  derivable_pt_lim (fun t => poly_eval B c (vadd x (vscale t (unit_row_ (tb_dim B) k)))) 0 (vget (poly_grad B c x) k).
Proof. exact poly_grad_correct. Qed.
Print Assumptions C22_poly_grad.

Theorem C22_poly_hessian : forall B c x k l, fam_ok (tb_fam B) -> length x = tb_dim B -> length c = length (indices B) -> (k < tb_dim B)%nat -> (l < tb_dim B)%nat ->
  derivable_pt_lim (fun t => vget (poly_grad B c (vadd x (vscale t (unit_row_ (tb_dim B) l)))) k) 0 (vget (nth k (poly_hess B c x) []) l)
  /\ vget (nth k (poly_hess B c x) []) l = vget (nth l (poly_hess B c x) []) k.
Proof. exact poly_hess_correct. Qed.
Print Assumptions C22_poly_hessian.

(** C23: fused product *)
Theorem C23_VC : forall B p X c, Forall (fun cj => length cj = p) c ->
  (length c = length (indices B) -> VC B p X c = Some (map (fun x => map (fun k => dot (Vrow B x) (col c k)) (seq 0 p)) X)) /\
  (length c <> length (indices B) -> VC B p X c = None).
Proof. exact VC_correct. Qed.
Print Assumptions C23_VC.

Example C23_case : exists r, VC (mkTB monomials 1 1 NoScale) 2 [[5]] [[0; 0]; [2; 3]] = Some [r] /\ r = [10; 15].
Proof. exact ex_vc_case. Qed.

(** C24: Vandermonde with Arnoldi *)
Theorem C24_orthonormal : forall X p m, (1 <= m)%nat -> X <> [] -> exists Q Rs, arnoldi X (index_set p m) = Some (Q, Rs) /\
  length Q = length (index_set p m) /\ wfR p m Rs /\
  (forall s, (s < length X)%nat -> arnoldi_X (fun _ => index_set p m) (index_set p m) Rs (nth s X []) = Some (map (fun q => vget q s) Q)) /\
  (no_breakdown Rs -> forall a b, (a < length Q)%nat -> (b < length Q)%nat -> dot (nth a Q []) (nth b Q []) = if Nat.eqb a b then 1 else 0).
Proof. exact arnoldi_correct. Qed.
Print Assumptions C24_orthonormal.

Theorem C24_vandermonde : forall X p m, (1 <= m)%nat -> X <> [] -> exists Q Rs, vandermonde_arnoldi X p m = Some (Q, Rs) /\
  length Q = length (index_set p m) /\ wfR p m Rs /\
  (forall s, (s < length X)%nat -> arnoldi_X (fun k => firstn k (index_set p m)) (index_set p m) Rs (nth s X []) = Some (map (fun q => vget q s) Q)) /\
  (no_breakdown Rs -> forall a b, (a < length Q)%nat -> (b < length Q)%nat -> dot (nth a Q []) (nth b Q []) = if Nat.eqb a b then INR (length X) else 0).
Proof. exact vandermonde_correct. Qed.
Print Assumptions C24_vandermonde.

Theorem C24_span : forall X p m Q Rs, (1 <= m)%nat -> X <> [] -> arnoldi X (index_set p m) = Some (Q, Rs) -> no_breakdown Rs ->
  forall k, (k < length (index_set p m))%nat ->
  let W := fun l x => wval p m (fun _ => index_set p m) Rs x l in
  let mon := fun l x => mono (nth l (index_set p m) []) x in
  (exists c, c k <> 0 /\ forall x, length x = m -> W k x = rsum (S k) (fun l => c l * mon l x)) /\
  (exists d, forall x, length x = m -> mon k x = rsum (S k) (fun l => d l * W l x)).
Proof. exact arnoldi_span. Qed.
Print Assumptions C24_span.

Theorem C24_DV : forall X p m Q Rs ell x, (1 <= m)%nat -> X <> [] -> arnoldi X (index_set p m) = Some (Q, Rs) -> (ell < m)%nat -> length x = m ->
  exists W D, arnoldi_X (fun _ => index_set p m) (index_set p m) Rs x = Some W /\ arnoldi_DV (index_set p m) Rs x W ell = Some D /\ length D = length (index_set p m) /\
  forall k, (k < length (index_set p m))%nat -> derivable_pt_lim (fun t => match arnoldi_X (fun _ => index_set p m) (index_set p m) Rs (vadd x (vscale t (unit_row_ m ell))) with Some W => vget W k | None => 0 end) 0 (vget D k).
Proof. exact arnoldi_DV_correct. Qed.
Print Assumptions C24_DV.

Theorem C24_polyval : forall X p m Q Rs d fuel, (1 <= m)%nat -> X <> [] -> vandermonde_arnoldi X p m = Some (Q, Rs) -> length d = length Q -> (p < fuel)%nat ->
  (forall s, (s < length X)%nat -> polyvalA fuel m d Rs (nth s X []) = Some (dot (map (fun q => vget q s) Q) d)) /\
  (forall x, exists v, polyvalA fuel m d Rs x = Some v).
Proof. exact polyvalA_correct. Qed.
Print Assumptions C24_polyval.

Example C24_case : exists Q Rs, arnoldi [[0]; [1]] (index_set 1 1) = Some (Q, Rs) /\ no_breakdown Rs.
Proof. exact ex_arnoldi. Qed.

(** finding: too few samples always lead to a division by zero *)
Theorem C24_breakdown_refuted : forall X p m Q Rs, (1 <= m)%nat -> X <> [] -> arnoldi X (index_set p m) = Some (Q, Rs) ->
  (length X < length (index_set p m))%nat -> exists k, (k < length Rs)%nat /\ snd (nth k Rs ([], 0)) = 0.
Proof. exact arnoldi_breakdown. Qed.
Print Assumptions C24_breakdown_refuted.

Example C24_breakdown_case : ([[3]] : mat) <> [] /\ (length ([[3%R]] : mat) < length (index_set 1 1))%nat.
Proof. exact ex_breakdown. Qed.

(** C25: scaling and roots *)
Theorem C25_range : forall dim X k, X <> [] -> (k < dim)%nat -> (exists x y, In x X /\ In y X /\ vget x k <> vget y k) ->
  (forall x, In x X -> -1 <= scale (set_scale dim X) k (vget x k) <= 1) /\
  (exists x, In x X /\ scale (set_scale dim X) k (vget x k) = -1) /\ (exists x, In x X /\ scale (set_scale dim X) k (vget x k) = 1).
Proof. exact scale_range. Qed.
Print Assumptions C25_range.

Theorem C25_invertible : forall s dim k, scale_ok s dim = true -> (k < dim)%nat -> dscale s k <> 0 /\
  (forall x y, scale s k y - scale s k x = dscale s k * (y - x)) /\ (forall v, exists x, scale s k x = v).
Proof. exact scale_invertible. Qed.
Print Assumptions C25_invertible.

Theorem C25_hermite_moments : forall dim X k, X <> [] -> (k < dim)%nat -> pstd (col X k) <> 0 ->
  mean (map (fun x => scale (set_scale_hermite dim X) k (vget x k)) X) = 0 /\
  mean (map (fun x => scale (set_scale_hermite dim X) k (vget x k) * scale (set_scale_hermite dim X) k (vget x k)) X) = 1/2.
Proof. exact hermite_scale_moments. Qed.
Print Assumptions C25_hermite_moments.

Example C25_hermite_case : pstd (col [[1]; [3]] 0) <> 0.
Proof. exact ex_herm_case. Qed.

Theorem C25_roots : forall F deg s c r rs, length c = S deg -> scale_ok s 1 = true ->
  (forall t, In t r <-> rsum (S deg) (fun a => vget c a * phi F a t) = 0) -> roots (mkTB F deg 1 s) r = Some rs ->
  forall x, In x rs <-> poly_eval (mkTB F deg 1 s) c [x] = 0.
Proof. exact roots_correct. Qed.
Print Assumptions C25_roots.

Example C25_case : roots (mkTB monomials 2 1 (MinMax [0] [4])) [-1/2; 1/2] = Some [1; 3] /\
  (forall t, In t [-1/2; 1/2] <-> rsum 3 (fun a => vget [-1/4; 0; 1] a * phi monomials a t) = 0) /\ scale_ok (MinMax [0] [4]) 1 = true.
Proof. exact ex_roots_case. Qed.

Theorem C25_laguerre_refuted : forall dim X k, X <> [] -> (k < dim)%nat -> (exists x y, In x X /\ In y X /\ vget x k <> vget y k) ->
  exists x, In x X /\ scale (set_scale dim X) k (vget x k) < 0.
Proof. exact laguerre_scale_refuted. Qed.
Print Assumptions C25_laguerre_refuted.

Theorem C25_constant_refuted : forall F deg dim X Y k a, X <> [] -> (k < dim)%nat -> (forall x, In x X -> vget x k = a) ->
  Vmat (mkTB F deg dim (set_scale dim X)) Y = None.
Proof. exact constant_coordinate_refuted. Qed.
Print Assumptions C25_constant_refuted.

Theorem C25_roots_noscale_refuted : forall F deg r, roots (mkTB F deg 1 NoScale) r = None /\ forall X, Vmat (mkTB F deg 1 NoScale) X = Some (map (Vrow (mkTB F deg 1 NoScale)) X).
Proof. exact roots_noscale_refuted. Qed.
Print Assumptions C25_roots_noscale_refuted.

(** C60 (polynomial fits) *)
Theorem C60_poly_bound : forall B p bd X fX c, linear_fit_returns p bd (map (Vrow B) X) fX c -> length fX = length X ->
  (bd = Lower -> forall i, (i < length X)%nat -> poly_eval B c (nth i X []) <= vget fX i) /\
  (bd = Upper -> forall i, (i < length X)%nat -> vget fX i <= poly_eval B c (nth i X [])) /\
  (forall c', length c' = length c ->
     (bd = Lower -> forall i, (i < length X)%nat -> poly_eval B c' (nth i X []) <= vget fX i) ->
     (bd = Upper -> forall i, (i < length X)%nat -> vget fX i <= poly_eval B c' (nth i X [])) ->
     fit_obj p (vsub (map (poly_eval B c) X) fX) <= fit_obj p (vsub (map (poly_eval B c') X) fX)).
Proof. exact poly_fit_bound. Qed.
Print Assumptions C60_poly_bound.

Example C60_poly_case : linear_fit_returns Ninf Lower [[1]; [1]] [3; 5] [3].
Proof. exact ex_fit_case. Qed.
