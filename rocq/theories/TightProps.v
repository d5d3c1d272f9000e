(** Generated by tools/mkprops.py from tools/props/TightProps.spec: the property theorems. *)
Require Import Reals List Bool Arith ZArith ZArith.
From Verif Require Import RVec Num Sums DomModel DomMoreModel QuadProofs HullProofs LipModel LipProofs MatLib SampModel GeoModel SampMoreModel LloydProofs SubModel ShadowProofs RidgeModel RidgeFitCases SubTight LloydTol MoreRefuted GeoProofs VoronoiProofs WalkProofs VoronoiCases FillModel FillLine CoffeeProofs MinimaxProofs MmcTight SLloydModel PosTight DrvModel DrvTight DemoModel HartFlow BlockProofs BlockTight BasisModel LocalLinProofs OpgTight.
Import ListNotations.
Local Open Scope R_scope.

Local Open Scope R_scope.

(** C46: clusters, the objective lowered by every step, stopping *)
Theorem C46_members : forall L Xhat X i x, Xhat <> [] -> In x (cluster_of (assign L Xhat X) i X) <->
  In x X /\ (i < length Xhat)%nat /\ (forall k, (k < length Xhat)%nat -> Ldist L (nth i Xhat []) x <= Ldist L (nth k Xhat []) x) /\ (forall k, (k < i)%nat -> Ldist L (nth i Xhat []) x < Ldist L (nth k Xhat []) x).
Proof. exact cluster_members. Qed.
Print Assumptions C46_members.

Example C46_members_case : In [8] (cluster_of (assign [[1]] [[0]; [10]] [[-2]; [0]; [8]; [10]]) 1 [[-2]; [0]; [8]; [10]]).
Proof. exact members_case. Qed.

Theorem C46_cost : forall q n L X xtol center, q_center q n L center -> forall m it Xhat Iold, Xhat <> [] -> Forall (fun c => length c = n) Xhat ->
  let S := scored m it L X (length Xhat) xtol center Xhat Iold in
  forall a b, (a <= b < length S)%nat -> qcost q L (nth b S []) X <= qcost q L (nth a S []) X.
Proof. exact scored_cost. Qed.
Print Assumptions C46_cost.

Example C46_cost_case : q_center 2 1 [[1]] meanc /\ [[0]; [10]] <> [] /\ Forall (fun c : vec => length c = 1%nat) [[0]; [10]] /\ lt 1 (length (scored 2 0 [[1]] [[0]; [4]; [8]; [12]] 2 1 meanc [[0]; [10]] (repeat O 4))).
Proof. exact cost_case. Qed.

Theorem C46_fill : forall q n L X xtol center, q_center q n L center -> forall m it Xhat Iold Z, Xhat <> [] -> X <> [] -> Forall (fun c => length c = n) Xhat ->
  In Z (scored m it L X (length Xhat) xtol center Xhat Iold) -> mm_dist L Z X ^ q <= INR (length X) * mm_dist L Xhat X ^ q.
Proof. exact scored_fill. Qed.
Print Assumptions C46_fill.

Theorem C46_stops : forall k m L X N xtol center Xhat, length Xhat = N -> (0 < N)%nat -> (0 < m)%nat -> Forall (fun c => length c = m) Xhat -> (forall it Y xh, length (center it Y xh) = m) ->
  let C := fun i => center O (cluster_of (assign L Xhat X) i (map (mv L) X)) (nth i Xhat []) in
  ((forall i j, (i < N)%nat -> (j < m)%nat -> vget (C i) j < vget (nth i Xhat []) j + xtol) -> minimax_cluster k L X N xtol center Xhat = Xhat) /\
  ((exists i j, (i < N)%nat /\ (j < m)%nat /\ vget (nth i Xhat []) j + xtol <= vget (C i) j) -> (exists x c, In x X /\ In c Xhat /\ Ldist L c x < Ldist L (nth 0 Xhat []) x) -> (1 < k)%nat ->
    mm_dist L (minimax_cluster k L X N xtol center Xhat) X <= mm_dist L (map C (seq 0 N)) X).
Proof. exact cluster_stops. Qed.
Print Assumptions C46_stops.

Example C46_stops_case : mm_dist [[1]] (minimax_cluster 2 [[1]] [[0]; [4]; [8]; [12]] 2 1 meanc [[0]; [10]]) [[0]; [4]; [8]; [12]] <= 2.
Proof. exact stops_case. Qed.

(** C65: the envelope for solvers meeting their contract *)
Theorem C65_solvers : forall (solve_ub solve_lb : mat -> vec -> vec) X fX u ngrid y lb ub,
  shadow_envelope solve_ub solve_lb X fX u ngrid = Some (y, lb, ub) ->
  let n := se_ngrid y ngrid in (2 <= n)%nat ->
  se_ub_ok n (se_A y n) fX (solve_ub (se_A y n) fX) -> se_lb_ok n (se_A y n) fX (solve_lb (se_A y n) fX) ->
  (forall i, (i < length X)%nat -> exists k, (S k < n)%nat /\ vget (se_grid y n) k <= dot (nth i X []) u <= vget (se_grid y n) (S k) /\
     on_piece (se_grid y n) lb k (dot (nth i X []) u) <= vget fX i <= on_piece (se_grid y n) ub k (dot (nth i X []) u)) /\
  se_ub_ok n (se_A y n) fX ub /\ se_lb_ok n (se_A y n) fX lb.
Proof. exact envelope_solvers. Qed.
Print Assumptions C65_solvers.

(** C70: the density *)
Theorem C70_refuted : exists mean cov offset scaling, 0 < cov /\ 0 < scaling /\ ~ is_logn_density mean cov offset scaling (logn_pdf mean cov offset scaling).
Proof. exact logn_pdf_refuted. Qed.
Print Assumptions C70_refuted.

(** C81: distances below the absolute tolerance *)
Theorem C81_collapse : forall (P : vec -> Prop) L verts cc Xhat, Forall P Xhat -> Forall P (verts Xhat) -> (forall x y, P x -> P y -> Ldist L x y <= atol) ->
  lloyd_step L verts cc Xhat = repeat (cc (verts Xhat)) (length Xhat).
Proof. exact lloyd_collapse. Qed.
Print Assumptions C81_collapse.

Theorem C81_monotone_refuted : exists (P : vec -> Prop) L V c Xhat F, Forall P Xhat /\ vor_cover P L Xhat V /\ P c /\
  (forall k, (k < length Xhat)%nat -> forall z, P z -> radius L (owned L Xhat V k) c <= radius L (owned L Xhat V k) z) /\
  (forall x, P x -> mind L Xhat x <= F) /\ lloyd_step L (fun _ => V) (fun _ => c) Xhat = [c; c] /\ exists x, P x /\ F < mind L (lloyd_step L (fun _ => V) (fun _ => c) Xhat) x.
Proof. exact lloyd_step_grows_refuted. Qed.
Print Assumptions C81_monotone_refuted.

Example C81_collapse_case : Forall sq01 two /\ Forall sq01 six /\ (forall x y, sq01 x -> sq01 y -> Ldist (cI (atol / 2)) x y <= atol).
Proof. exact collapse_case. Qed.

(** C96: one value per sample *)
Theorem C96_vector_values_refuted : exists X f, length f = length (arows X) /\ check_sample_inputs (Some X) (Some f) None <> None /\ forall v, In v (pv_values f) -> check_sample_inputs (Some X) (Some v) None = None.
Proof. exact vector_values_refuted. Qed.
Print Assumptions C96_vector_values_refuted.

(** C133: exact on an interval when every gap holds a start *)
Theorem C133_line : forall lo hi Xhat qr ords X0, walk_pre 1 [[1]] iA (ib lo hi) [] Xhat qr ords (fun _ => vzero 1) -> Forall (inP 1 iA (ib lo hi)) X0 -> X0 <> [] ->
  (forall y, lo <= y <= hi -> exists s, In [s] X0 /\ clear_start lo hi Xhat s /\ same_gap Xhat s y) ->
  exists d, fill_estimate 1 1 [[1]] iA (ib lo hi) [] Xhat qr ords X0 = Some d /\
    (forall y, lo <= y <= hi -> exists c, In [c] Xhat /\ Rabs (y - c) <= d) /\
    exists y, lo <= y <= hi /\ forall c, In [c] Xhat -> d <= Rabs (y - c).
Proof. exact est_line. Qed.
Print Assumptions C133_line.

Example C133_line_case : walk_pre 1 [[1]] iA (ib 0 10) [] wX tqr word (fun _ => vzero 1) /\ Forall (inP 1 iA (ib 0 10)) [[1]] /\
  (forall y, 0 <= y <= 10 -> exists s, In [s] [[1]] /\ clear_start 0 10 wX s /\ same_gap wX s y).
Proof. exact est_line_case. Qed.

Theorem C133_line_refuted : exists lo hi Xhat qr ords X0 y d, walk_pre 1 [[1]] iA (ib lo hi) [] Xhat qr ords (fun _ => vzero 1) /\ Forall (inP 1 iA (ib lo hi)) X0 /\
  (forall s, In [s] X0 -> clear_start lo hi Xhat s) /\ fill_estimate 1 1 [[1]] iA (ib lo hi) [] Xhat qr ords X0 = Some d /\ lo <= y <= hi /\ forall c, In [c] Xhat -> 4 * d <= Rabs (y - c).
Proof. exact est_line_refuted. Qed.
Print Assumptions C133_line_refuted.

(** C83: numpy's treatment of negative indices *)
Theorem C83_index : forall dims idx r, wrap dims idx = Some r <-> length idx = length dims /\ length r = length dims /\
  forall j d i k, nth_error dims j = Some d -> nth_error idx j = Some i -> nth_error r j = Some k -> (0 <= k < d)%Z /\ (k = i \/ k = i + d)%Z.
Proof. exact wrap_spec. Qed.
Print Assumptions C83_index.

Example C83_index_case : wrap [3; 5]%Z [-1; 2]%Z = Some [2; 2]%Z.
Proof. exact wrap_case. Qed.

(** C144: storing in an array of integers *)
Theorem C144_truncation : forall r, exists k : Z, truncr r = IZR k /\ Rabs (IZR k) <= Rabs r < Rabs (IZR k) + 1 /\ 0 <= r * IZR k.
Proof. exact trunc_spec. Qed.
Print Assumptions C144_truncation.

Example C144_truncation_case : exists k : Z, truncr (-5/2) = IZR k /\ k = (-2)%Z.
Proof. exact trunc_case. Qed.

(** C149: files with one number *)
Theorem C149_vector_file : forall fmt v a, match savetxt fmt (A1 v) with Some f => loadtxt f | None => None end = Some a ->
  (List.length v = 1%nat -> a = A0 (fmt (hd 0 v)) /\ arr_len a = None) /\ (List.length v <> 1%nat -> a = A1 (map fmt v) /\ arr_len a = Some (List.length v)).
Proof. exact vector_file. Qed.
Print Assumptions C149_vector_file.

Example C149_vector_file_case : match savetxt (fun x => x) (A1 [7]) with Some f => loadtxt f | None => None end = Some (A0 7) /\ match savetxt (fun x => x) (A1 [7; 8; 9]) with Some f => loadtxt f | None => None end = Some (A1 [7; 8; 9]).
Proof. exact vector_file_case. Qed.

(** C108: the formulas are the means of the solution of the Hartmann equations *)
Theorem C108_equations : forall mu G eta B0, 0 < mu -> 0 < eta -> 0 < B0 ->
  (exists u u1 u2 b b1 b2, hartmann_flow mu G eta B0 u u1 u2 b b1 b2) /\
  forall u u1 u2 b b1 b2, hartmann_flow mu G eta B0 u u1 u2 b b1 b2 -> mean_on u (-1) 1 (u_ave [mu; G; eta; B0]) /\ mean_on b (-1) 0 (Bind [mu; G; eta; B0]).
Proof. exact hartmann_equations. Qed.
Print Assumptions C108_equations.

Example C108_equations_case : 0 < 0.1 /\ 0 < 1 /\ 0 < 0.5 /\ 0.05 <= 0.1 <= 0.2 /\ 0.1 <= 0.5 <= 1.
Proof. exact hartmann_equations_case. Qed.

(** C80: the sweeps and when they stop *)
Theorem C80_stops : forall maxiter L c1 c2 vv xtol X0, (2 <= length L)%nat -> 0 < xtol ->
  exists k (S : nat -> mat), (k <= maxiter)%nat /\ S O = X0 /\ (forall j, (j < k)%nat -> sweep_of vv (S j) (S (j + 1)%nat)) /\
    (forall j, (j + 1 < k)%nat -> ~ calm L xtol (S j) (S (j + 1)%nat)) /\ (k = maxiter \/ exists j, k = (j + 1)%nat /\ calm L xtol (S j) (S k)) /\
    maximin_block maxiter L c1 c2 vv (length X0) xtol X0 = S k.
Proof. exact block_stops. Qed.
Print Assumptions C80_stops.

Example C80_stops_case : let L := [[1; 0]; [0; 1]] in sweep_of far [[0; 1/4]; [1/4; 0]] [[1; 1]; [0; 0]] /\ ~ calm L (1/10) [[0; 1/4]; [1/4; 0]] [[1; 1]; [0; 0]] /\
  sweep_of far [[1; 1]; [0; 0]] [[1; 1]; [0; 0]] /\ calm L (1/10) [[1; 1]; [0; 0]] [[1; 1]; [0; 0]].
Proof. exact block_stops_case. Qed.

(** C54: what standardizing does *)
Theorem C54_standardize : forall m X k, Forall (fun x => length x = m) X -> (k < m)%nat -> (exists a b, In a (entries X k) /\ In b (entries X k) /\ a <> b) ->
  let z := entries (opg_z m X) k in length z = length X /\ vsum z = 0 /\ vsum (map (fun a => a ^ 2) z) = INR (length X).
Proof. exact opg_standardize. Qed.
Print Assumptions C54_standardize.

Example C54_standardize_case : Forall (fun x => length x = 2%nat) [[0; 1]; [2; 1]; [4; 7]] /\ exists a b, In a (entries [[0; 1]; [2; 1]; [4; 7]] 1) /\ In b (entries [[0; 1]; [2; 1]; [4; 7]] 1) /\ a <> b.
Proof. exact opg_standardize_case. Qed.

Theorem C54_covariance_refuted : exists m X, Forall (fun x => length x = m) X /\ (forall k, (k < m)%nat -> exists a b, In a (entries X k) /\ In b (entries X k) /\ a <> b) /\ (2 <= m)%nat /\
  vsum (map (fun z => vget z 0 * vget z 1) (opg_z m X)) <> 0.
Proof. exact opg_covariance_refuted. Qed.
Print Assumptions C54_covariance_refuted.

(** C55: which perplexities are accepted *)
Theorem C55_perplexity : forall pb lstsq m X fX p bw Xt, (exists A, local_linear pb lstsq m X fX (Some p) bw Xt = Some A) <->
  length fX = length X /\ 2 <= p < INR (length X) /\ (length (points X Xt) <= length X)%nat /\ Forall (fun x => pb (sqdist X x) p <> None) (points X Xt).
Proof. exact ll_perplexity. Qed.
Print Assumptions C55_perplexity.

Theorem C55_default : forall pb lstsq m X fX Xt, (exists A, local_linear pb lstsq m X fX None None Xt = Some A) <->
  length fX = length X /\ (1 <= m)%nat /\ (m + 1 < length X)%nat /\ (length (points X Xt) <= length X)%nat /\ Forall (fun x => pb (sqdist X x) (INR (m + 1)) <> None) (points X Xt).
Proof. exact ll_default. Qed.
Print Assumptions C55_default.

Example C55_perplexity_case : let X := [[0]; [1]; [3]; [4]] in 2 <= 3 < INR (length X) /\ le (length (points X (Some [[2]]))) (length X) /\ Forall (fun x => (fun (_ : vec) (_ : R) => Some 1) (sqdist X x) 3 <> None) (points X (Some [[2]])).
Proof. exact ll_perplexity_case. Qed.
