(** Generated by tools/mkprops.py from tools/props/SampProps.spec: the property theorems. *)
Require Import Reals List Bool Arith ZArith Permutation Sorted ZArith.
From Verif Require Import RVec Num Sums DomModel DomSpec DomProofs DomMoreModel SweepProofs HullProofs HullIneqProofs LipModel LipProofs MatLib SampModel PigeonLib LatinProofs PoissonProofs PoissonGrid PoissonCases DesignProofs CoffeeProofs GeoModel GeoProofs VoronoiProofs WalkProofs VoronoiCases MoreCases.
Import ListNotations.
Local Open Scope R_scope.

Local Open Scope R_scope.

(** C33: Latin hypercube *)
Theorem C33_latin : forall l u N perms, length u = length l -> (forall i, (i < length l)%nat -> vget l i <= vget u i) ->
  perms_ok (length l) N perms -> latin l u N (lhs_design l u N perms).
Proof. exact lhs_latin. Qed.
Print Assumptions C33_latin.

Theorem C33_inside : forall l u N perms tol, length u = length l -> (forall i, (i < length l)%nat -> vget l i <= vget u i) -> 0 <= tol ->
  perms_ok (length l) N perms -> Forall (fun x => inside1 (box_of l u) x tol = true) (lhs_design l u N perms).
Proof. exact lhs_inside. Qed.
Print Assumptions C33_inside.

Example C33_case : perms_ok 2 4 ex_perms.
Proof. exact ex_perms_ok. Qed.

(** C34: maximin Latin hypercube search *)
Theorem C34_best_visited : forall l u N perms0 draws, length u = length l -> (forall i, (i < length l)%nat -> vget l i <= vget u i) ->
  (exists i, (i < length l)%nat /\ vget l i < vget u i) -> (2 <= N)%nat -> draws <> [] -> draws_ok N draws -> perms_ok (length l) N perms0 ->
  exists X, lhs_maximin l u N perms0 draws = Some (Some X) /\ latin l u N X /\
    In X (visited l u N (mkLh perms0 None (repeat 0 N)) draws) /\
    forall Y, In Y (visited l u N (mkLh perms0 None (repeat 0 N)) draws) ->
      latin l u N Y /\ tup_gt (score_maximin Y) (score_maximin X) = false /\
      (forall sX sY, min_sep X sX -> min_sep Y sY -> sY <= sX).
Proof. exact lhs_maximin_correct. Qed.
Print Assumptions C34_best_visited.

Theorem C34_monotone : forall l u N perms0 ds1 ds2, let s k := fold_left (lh_step l u N) k (mkLh perms0 None (repeat 0 N)) in
  lh_score (s (ds1 ++ ds2)) = lh_score (s ds1) \/ tup_gt (lh_score (s (ds1 ++ ds2))) (lh_score (s ds1)) = true.
Proof. exact lhs_score_monotone. Qed.
Print Assumptions C34_monotone.

Theorem C34_distances : forall X j, (2 <= length X)%nat -> (j < length X)%nat ->
  (forall i, (i < length X)%nat -> i <> j -> vget (min_dists X) j <= norm2 (vsub (nth i X []) (nth j X []))) /\
  exists i, (i < length X)%nat /\ i <> j /\ vget (min_dists X) j = norm2 (vsub (nth i X []) (nth j X [])).
Proof. exact min_dists_spec. Qed.
Print Assumptions C34_distances.

Theorem C34_score : forall X, (2 <= length X)%nat -> StronglySorted Rle (score_maximin X) /\ Permutation (score_maximin X) (min_dists X) /\
  exists s t, score_maximin X = s :: t /\ min_sep X s.
Proof. exact score_spec. Qed.
Print Assumptions C34_score.

Theorem C34_swap_changes : forall m N i j r perms, perms_ok m N perms -> (0 < m)%nat -> (i < N)%nat -> (j < N)%nat -> i <> j -> length r = m ->
  exists k, (k < m)%nat /\ nth k (swap_perms i j r perms) [] = swap_row i j (nth k perms []) /\ nth i (nth k (swap_perms i j r perms) []) O = nth j (nth k perms []) O /\ swap_perms i j r perms <> perms.
Proof. exact swap_changes. Qed.
Print Assumptions C34_swap_changes.

Example C34_swap_case : swap_perms 0 1 [0; 1] ex_perms = [[0;1;2;3];[3;1;0;2]]%nat.
Proof. exact ex_swapped. Qed.

Theorem C34_no_iterations_refuted : exists l u N perms0 draws, length u = length l /\ (forall i, (i < length l)%nat -> vget l i < vget u i) /\ (1 <= N)%nat /\
  perms_ok (length l) N perms0 /\ lhs_maximin l u N perms0 draws = Some None.
Proof. exact lhs_maximin_none_refuted. Qed.
Print Assumptions C34_no_iterations_refuted.

Theorem C34_single_point_refuted : exists l u perms0, length u = length l /\ (forall i, (i < length l)%nat -> vget l i < vget u i) /\
  perms_ok (length l) 1 perms0 /\ forall draws, draws <> [] -> lhs_maximin l u 1 perms0 draws = None.
Proof. exact lhs_maximin_single_refuted. Qed.
Print Assumptions C34_single_point_refuted.

Theorem C34_start_not_scored_refuted : exists l u N perms0 draws X s0 sX, perms_ok (length l) N perms0 /\ draws_ok N draws /\
  lhs_maximin l u N perms0 draws = Some (Some X) /\ min_sep (lhs_design l u N perms0) s0 /\ min_sep X sX /\ sX < s0.
Proof. exact lhs_start_refuted. Qed.
Print Assumptions C34_start_not_scored_refuted.

Example C34_case : exists X, lhs_maximin ex_l ex_u 4 ex_perms [ex_draw] = Some (Some X) /\ latin ex_l ex_u 4 X.
Proof. exact ex_lhs_search. Qed.

(** C35: Poisson disk sampling *)
Theorem C35_correct : forall fuel L r inside pick trials x0 Y, inside x0 = true ->
  poisson fuel L r inside pick trials x0 = Some Y -> separated L r Y /\ Forall (fun x => inside x = true) Y /\ hd [] Y = x0.
Proof. exact poisson_correct. Qed.
Print Assumptions C35_correct.

Theorem C35_domain : forall fuel L r d tol pick trials x0 Y, dom_wf d -> dcls d <> Point -> relaxed d tol x0 ->
  poisson fuel L r (fun x => inside1 d x tol) pick trials x0 = Some Y -> separated L r Y /\ Forall (relaxed d tol) Y.
Proof. exact poisson_domain. Qed.
Print Assumptions C35_domain.

Theorem C35_terminates : forall K L r inside pick trials x0, (forall k l, l <> [] -> In (pick k l) l) -> inside x0 = true ->
  (forall Y, separated L r Y -> Forall (fun x => inside x = true) Y -> (length Y <= K)%nat) ->
  exists Y, poisson (2 * K) L r inside pick trials x0 = Some Y.
Proof. exact poisson_terminates. Qed.
Print Assumptions C35_terminates.

Theorem C35_exhausted : forall fuel L r inside pick trials x0 Y, poisson fuel L r inside pick trials x0 = Some Y -> forall x, In x Y -> spent L r inside trials Y x.
Proof. exact poisson_spent. Qed.
Print Assumptions C35_exhausted.

Example C35_exhausted_case : forall x, In x [[0]; [3/4]] -> spent [[1]] (1/2) (box1 0 1) (fun _ _ => [([1], 3/4)]) [[0]; [3/4]] x.
Proof. exact ex_spent. Qed.

Theorem C35_packing : forall L r l u, 0 < r -> Forall (fun a => length a = length l) L ->
  exists K, forall Y, separated L r Y -> Forall (in_box l u) Y -> (length Y <= K)%nat.
Proof. exact packing. Qed.
Print Assumptions C35_packing.

Theorem C35_bounded : forall L r inside l u, 0 < r -> Forall (fun a => length a = length l) L -> (forall x, inside x = true -> in_box l u x) ->
  exists fuel, forall pick trials x0, (forall k l, l <> [] -> In (pick k l) l) -> inside x0 = true ->
    exists Y, poisson fuel L r inside pick trials x0 = Some Y /\ separated L r Y /\ Forall (fun x => inside x = true) Y.
Proof. exact poisson_bounded. Qed.
Print Assumptions C35_bounded.

Theorem C35_bounded_domain : forall L r d tol l u, 0 < r -> dom_wf d -> dcls d <> Point -> lb d = map Fin l -> ub d = map Fin u -> Forall (fun a => length a = dim d) L ->
  exists fuel, forall pick trials x0, (forall k l, l <> [] -> In (pick k l) l) -> relaxed d tol x0 ->
    exists Y, poisson fuel L r (fun x => inside1 d x tol) pick trials x0 = Some Y /\ separated L r Y /\ Forall (relaxed d tol) Y.
Proof. exact poisson_bounded_domain. Qed.
Print Assumptions C35_bounded_domain.

Theorem C35_unbounded_refuted : exists (L : mat) r inside pick trials x0, 0 < r /\ inside x0 = true /\ (forall k l, l <> [] -> In (pick k l) l) /\
  (forall k x t, In t (trials k x) -> norm2 (mv L (fst t)) = 1 /\ r <= snd t <= 2 * r) /\ forall fuel, poisson fuel L r inside pick trials x0 = None.
Proof. exact poisson_unbounded_refuted. Qed.
Print Assumptions C35_unbounded_refuted.

Example C35_case : box1 0 1 [0] = true /\
  poisson 4 [[1]] (1/2) (box1 0 1) hd_pick (fun _ _ => [([1], 3/4)]) [0] = Some [[0]; [3/4]] /\ separated [[1]] (1/2) [[0]; [3/4]] /\
  Forall (fun x => box1 0 1 x = true) [[0]; [3/4]] /\ (forall x, box1 0 1 x = true -> length x = 1%nat -> in_box [0] [1] x) /\ (forall k l, l <> [] -> In (hd_pick k l) l).
Proof. exact ex_poisson. Qed.

(** C36: minimax design on a line *)
Theorem C36_optimal : forall (P : vec -> Prop) a c1 c2 N, (0 < N)%nat -> convexP P -> corners P a c1 c2 ->
  let w := dot a c1 - dot a c2 in
  exists X, minimax_1d c1 c2 N = Some X /\ length X = N /\ Forall P X /\
    (forall x, P x -> exists y, In y X /\ Ldist [a] x y <= w / (2 * INR N)) /\
    (forall Y : mat, length Y = N -> exists x, P x /\ forall y, In y Y -> w / (2 * INR N) <= Ldist [a] x y).
Proof. exact minimax_1d_optimal. Qed.
Print Assumptions C36_optimal.

Theorem C36_zero : forall c1 c2, minimax_1d c1 c2 0 = None.
Proof. exact minimax_1d_none. Qed.
Print Assumptions C36_zero.

Theorem C36_domains_convex : forall d, dom_wf d -> convexP (member d).
Proof. exact member_convexP. Qed.
Print Assumptions C36_domains_convex.

Example C36_case : convexP ex_sq /\ corners ex_sq [1; 1] [1; 2] [0; 0] /\ dot [1; 1] [1; 2] - dot [1; 1] [0; 0] = 3.
Proof. exact ex_corners. Qed.

(** C37: maximin design on a line *)
Theorem C37_optimal : forall (P : vec -> Prop) a c1 c2 N, (2 <= N)%nat -> convexP P -> corners P a c1 c2 ->
  let w := dot a c1 - dot a c2 in let X := maximin_1d c1 c2 N in
  length X = N /\ Forall P X /\ (forall i j, (i < j < N)%nat -> w / INR (N - 1) <= Ldist [a] (nth i X []) (nth j X [])) /\
  (forall Y : mat, length Y = N -> Forall P Y -> exists i j, (i < j < N)%nat /\ Ldist [a] (nth i Y []) (nth j Y []) <= w / INR (N - 1)).
Proof. exact maximin_1d_optimal. Qed.
Print Assumptions C37_optimal.

Example C37_case : convexP ex_sq /\ corners ex_sq [1; 1] [1; 2] [0; 0] /\ dot [1; 1] [1; 2] - dot [1; 1] [0; 0] = 3.
Proof. exact ex_corners. Qed.

(** C38: coffeehouse design *)
Theorem C38_two_optimal : forall (P : vec -> Prop) L eps verts x0 N, (1 <= N)%nat -> 0 <= eps -> P x0 -> farthest P L eps verts ->
  exists Y, coffeehouse N L verts x0 = Some Y /\ length Y = N /\ Forall P Y /\ hd [] Y = x0 /\
    forall Z : mat, length Z = N -> Forall P Z -> (2 <= N)%nat ->
      exists i j, (i < j < N)%nat /\ forall p q, (p < q < N)%nat -> Ldist L (nth i Z []) (nth j Z []) <= 2 * Ldist L (nth p Y []) (nth q Y []) + 4 * eps.
Proof. exact coffeehouse_2opt. Qed.
Print Assumptions C38_two_optimal.

Theorem C38_line : forall lb ub L x0 N, (1 <= N)%nat -> lb <= ub -> interval lb ub x0 ->
  exists Y, coffeehouse N L (vverts1 lb ub) x0 = Some Y /\ length Y = N /\ Forall (interval lb ub) Y /\
    forall Z : mat, length Z = N -> Forall (interval lb ub) Z -> (2 <= N)%nat ->
      exists i j, (i < j < N)%nat /\ forall p q, (p < q < N)%nat -> Ldist L (nth i Z []) (nth j Z []) <= 2 * Ldist L (nth p Y []) (nth q Y []).
Proof. exact coffeehouse_1d. Qed.
Print Assumptions C38_line.

Theorem C38_voronoi : forall m A b L Linv hsi, inverse_of m L Linv -> forall inside eps x0 N, (1 <= N)%nat -> inP m A b x0 -> (forall x, inP m A b x -> inside x = true) ->
  (forall Xhat, Xhat <> [] -> Forall (inP m A b) Xhat -> fro L * (INR (length (vor_all m A b L Linv hsi Xhat)) * atol) <= eps /\
     forall k, (k < length Xhat)%nat -> hsi_ok m (hs_rows m A b L Linv Xhat k) (hsi (hs_rows m A b L Linv Xhat k))) ->
  exists Y, coffeehouse N L (voronoi_vertex m A b L Linv hsi inside) x0 = Some Y /\ length Y = N /\ Forall (inP m A b) Y /\
    forall Z : mat, length Z = N -> Forall (inP m A b) Z -> (2 <= N)%nat ->
      exists i j, (i < j < N)%nat /\ forall p q, (p < q < N)%nat -> Ldist L (nth i Z []) (nth j Z []) <= 2 * Ldist L (nth p Y []) (nth q Y []) + 4 * eps.
Proof. exact coffeehouse_vor. Qed.
Print Assumptions C38_voronoi.

Theorem C38_zero_refuted : exists L verts x0 Y, coffeehouse 0 L verts x0 = Some Y /\ length Y <> 0%nat.
Proof. exact coffeehouse_zero_refuted. Qed.
Print Assumptions C38_zero_refuted.

Example C38_case : inverse_of 2 vI vI /\ Forall (inP 2 vA vb) vX /\
  forall k, (k < length vX)%nat -> hsi_ok 2 (hs_rows 2 vA vb vI vI vX k) (vhsi (hs_rows 2 vA vb vI vI vX k)).
Proof. exact ex_voronoi. Qed.

(** C39: Sobol sequence *)
Theorem C39_correct : forall fuel l u z inside n Y, sobol fuel l u z inside n = Some Y ->
  length Y = n /\ Forall (fun x => inside x = true) Y /\ exists M0, forall M, (M0 <= M)%nat -> firstn n (filter inside (map (fun k => sobol_scale l u (z k)) (seq 1 M))) = Y.
Proof. exact sobol_correct. Qed.
Print Assumptions C39_correct.

Theorem C39_terminates : forall l u z inside n M, (0 < n)%nat -> (n <= length (filter inside (map (fun k => sobol_scale l u (z k)) (seq 1 M))))%nat ->
  exists Y, sobol (S M) l u z inside n = Some Y.
Proof. exact sobol_terminates. Qed.
Print Assumptions C39_terminates.

Theorem C39_diverges : forall l u z inside n, (forall M, (length (filter inside (map (fun k => sobol_scale l u (z k)) (seq 1 M))) < n)%nat) -> forall fuel, sobol fuel l u z inside n = None.
Proof. exact sobol_diverges. Qed.
Print Assumptions C39_diverges.

Theorem C39_scaling : forall l u z, length u = length l -> length z = length l -> (forall i, (i < length l)%nat -> vget l i <= vget u i) -> (forall i, (i < length l)%nat -> 0 <= vget z i <= 1) ->
  in_box l u (sobol_scale l u z).
Proof. exact sobol_in_box. Qed.
Print Assumptions C39_scaling.

Example C39_case : sobol 2 [0] [2] ex_z ex_in 3 = Some [[2 * (1/2)]; [2 * (3/4)]; [2 * (7/8)]].
Proof. exact ex_sobol. Qed.

Example C39_case_empty : forall fuel, sobol fuel [0] [1] ex_z (fun _ => false) 1 = None.
Proof. exact ex_sobol_empty. Qed.

(** C41: Voronoi vertex walk *)
Theorem C41_step : forall m L A b Aeq Xhat qr rnd ord g k x0, step_pre m L A b Aeq Xhat qr ord g k x0 ->
  let x' := vv_step m L A b Aeq Xhat qr rnd ord g k x0 in let xh := site Xhat ord 0 in
  let nh xhat := dot (mv L (vsub xhat xh)) (mv L (step_h m L A b Aeq Xhat qr rnd ord g k x0)) in
  inP m A b x' /\ (forall a, In a Aeq -> dot a x' = dot a x0) /\
  (forall xhat, In xhat Xhat -> nh xhat <= 0 \/ atol < nh xhat -> Ldist L x' xh <= Ldist L x' xhat) /\
  (rnd = false -> Ldist L x0 xh <= Ldist L x' xh) /\
  Ldist L x0 xh * Ldist L x0 xh <= Ldist L x' xh * Ldist L x' xh + 2 * atol * edist x' x0.
Proof. exact vv_step_correct. Qed.
Print Assumptions C41_step.

Theorem C41_walk_inside : forall m L A b Aeq Xhat qr rnd ords gs n x0, walk_pre m L A b Aeq Xhat qr ords gs -> inP m A b x0 ->
  let x := vv_walk n 0 m L A b Aeq Xhat qr rnd ords gs x0 in inP m A b x /\ forall a, In a Aeq -> dot a x = dot a x0.
Proof. exact walk_inside. Qed.
Print Assumptions C41_walk_inside.

Theorem C41_walk_far_partial : forall m L A b Aeq Xhat qr rnd ords gs n x0 Dm, walk_pre m L A b Aeq Xhat qr ords gs -> inP m A b x0 -> (forall x y, inP m A b x -> inP m A b y -> edist x y <= Dm) ->
  (forall i, (i < n)%nat -> clean_step m L A b Aeq Xhat qr rnd ords gs i (vv_walk i 0 m L A b Aeq Xhat qr rnd ords gs x0)) ->
  let x := vv_walk n 0 m L A b Aeq Xhat qr rnd ords gs x0 in
  mind L Xhat x0 * mind L Xhat x0 <= mind L Xhat x * mind L Xhat x + (if rnd then INR n * (2 * atol * Dm) else 0).
Proof. exact walk_far_partial. Qed.
Print Assumptions C41_walk_far_partial.

Theorem C41_walk_far_refuted : exists m L A b Aeq Xhat qr ords gs x0,
  walk_pre m L A b Aeq Xhat qr ords gs /\ inP m A b x0 /\ 0 < mind L Xhat x0 /\
  let x := vv_walk m 0 m L A b Aeq Xhat qr false ords gs x0 in In x Xhat /\ mind L Xhat x = 0.
Proof. exact walk_far_refuted. Qed.
Print Assumptions C41_walk_far_refuted.

Example C41_case : walk_pre 1 [[1]] tA wb [] wX tqr word (fun _ => [1]) /\ inP 1 tA wb [1] /\
  (forall i, (i < 1)%nat -> clean_step 1 [[1]] tA wb [] wX tqr false word (fun _ => [1]) i (vv_walk i 0 1 [[1]] tA wb [] wX tqr false word (fun _ => [1]) [1])) /\
  vv_walk 1 0 1 [[1]] tA wb [] wX tqr false word (fun _ => [1]) [1] = [5].
Proof. exact ex_walk. Qed.

(** C42: unique points *)
Theorem C42_kept_apart : forall X i j, (i < j < length X)%nat -> nth i (unique_mask X) false = true -> atol < edist (nth i X []) (nth j X []).
Proof. exact unique_kept_apart. Qed.
Print Assumptions C42_kept_apart.

Theorem C42_dropped_near : forall X i, (i < length X)%nat -> nth i (unique_mask X) false = false -> exists j, (i < j < length X)%nat /\ edist (nth i X []) (nth j X []) <= atol.
Proof. exact unique_dropped. Qed.
Print Assumptions C42_dropped_near.

Theorem C42_near_partial : forall m X i, Forall (fun x => length x = m) X -> (i < length X)%nat ->
  exists j, (i <= j < length X)%nat /\ nth j (unique_mask X) false = true /\ edist (nth i X []) (nth j X []) <= INR (j - i) * atol.
Proof. exact unique_near_partial. Qed.
Print Assumptions C42_near_partial.

Theorem C42_chain_refuted : exists X i, (i < length X)%nat /\ nth i (unique_mask X) false = false /\
  forall j, (j < length X)%nat -> nth j (unique_mask X) false = true -> atol < edist (nth i X []) (nth j X []).
Proof. exact unique_chain_refuted. Qed.
Print Assumptions C42_chain_refuted.

Theorem C42_last_kept : forall X, X <> [] -> nth (length X - 1) (unique_mask X) false = true.
Proof. exact unique_last. Qed.
Print Assumptions C42_last_kept.

Example C42_case : unique_mask [[0]; [atol / 2]; [1]] = [false; true; true].
Proof. exact unique_case. Qed.

(** C43: simplex and sphere *)
Theorem C43_simplex : forall r, (2 <= length r)%nat -> Forall (fun u => 0 <= u <= 1) r ->
  length (simplex_row r) = (length r - 1)%nat /\ Forall (fun a => 0 <= a) (simplex_row r) /\ vsum (simplex_row r) = 1.
Proof. exact simplex_weights. Qed.
Print Assumptions C43_simplex.

Theorem C43_simplex_zero_refuted : exists r, length r = 1%nat /\ Forall (fun u => 0 <= u <= 1) r /\ vsum (simplex_row r) <> 1.
Proof. exact simplex_zero_refuted. Qed.
Print Assumptions C43_simplex_zero_refuted.

Theorem C43_sphere : forall x0 cands Y, sample_sphere x0 cands = Some Y ->
  length Y = S (length cands) /\ Forall (fun x => norm2 x = 1) Y /\ forall i, (i < length cands)%nat -> best_candidate (firstn (S i) Y) (nth i cands []) (nth (S i) Y []).
Proof. exact sphere_correct. Qed.
Print Assumptions C43_sphere.

Theorem C43_sphere_defined : forall x0 cands, norm2 x0 <> 0 -> Forall (fun C => C <> [] /\ Forall (fun c => norm2 c <> 0) C) cands -> exists Y, sample_sphere x0 cands = Some Y.
Proof. exact sphere_defined. Qed.
Print Assumptions C43_sphere_defined.

Example C43_case_simplex : simplex_row [1/5; 7/10; 3/10; 1/2] = [3/10; 7/10 - 3/10; 1 - 7/10].
Proof. exact ex_simplex. Qed.

Example C43_case_sphere : norm2 [3; 4] <> 0 /\ Forall (fun C => C <> [] /\ Forall (fun c => norm2 c <> 0) C) [[[1; 0]; [0; 2]]].
Proof. exact ex_sphere. Qed.

(** C44: fill distance in one dimension *)
Theorem C44_farthest : forall lb ub L, lb <= ub -> farthest (interval lb ub) L 0 (vverts1 lb ub).
Proof. exact vor1d_farthest. Qed.
Print Assumptions C44_farthest.

Theorem C44_exact : forall lb ub L Xhat, lb <= ub -> Xhat <> [] -> Forall (interval lb ub) Xhat ->
  let d := fill_dist L Xhat (vverts1 lb ub Xhat) in
  (forall x, interval lb ub x -> mind L Xhat x <= d) /\ exists x, interval lb ub x /\ mind L Xhat x = d.
Proof. exact fill_1d_exact. Qed.
Print Assumptions C44_exact.

Theorem C44_outside_refuted : exists lb ub L Xhat, lb <= ub /\ Xhat <> [] /\ Forall (fun x => length x = 1%nat) Xhat /\
  forall x, interval lb ub x -> mind L Xhat x < fill_dist L Xhat (vverts1 lb ub Xhat).
Proof. exact fill_1d_outside_refuted. Qed.
Print Assumptions C44_outside_refuted.

Example C44_case : interval 0 1 [1/4] /\ interval 0 1 [1] /\ fill_dist [[1]] [[1/4]; [1]] (vverts1 0 1 [[1/4]; [1]]) = 3/8.
Proof. exact ex_fill. Qed.

(** C83: the background grid of the Poisson sampler *)
Theorem C83_refines : forall fuel L r inside corner pick trials x0, length L = 1%nat -> 0 < r -> inside x0 = true ->
  (forall x, inside x = true -> in_range (grid_dims corner L r) (grid_coord L (grid_start corner L) (grid_h L r) x) = true) ->
  poisson_grid fuel L r inside corner pick trials x0 = match poisson fuel L r inside pick trials x0 with Some Y => Done Y | None => OutOfFuel end.
Proof. exact poisson_grid_refines. Qed.
Print Assumptions C83_refines.

Theorem C83_covers : forall L r corner x, 0 < r -> (0 < length L)%nat ->
  (forall a, In a L -> grid_lo corner a <= dot a x <= grid_hi corner a) ->
  (forall a, In a L -> forall z : Z, (grid_hi corner a - grid_lo corner a) / grid_h L r <> IZR z) ->
  in_range (grid_dims corner L r) (grid_coord L (grid_start corner L) (grid_h L r) x) = true.
Proof. exact grid_covers. Qed.
Print Assumptions C83_covers.

Theorem C83_neighbours : forall L r st x y, (0 < length L)%nat -> 0 < r -> Ldist L x y <= r ->
  In (grid_coord L st (grid_h L r) y) (cells (grid_rad (length L)) (grid_coord L st (grid_h L r) x)).
Proof. exact grid_near. Qed.
Print Assumptions C83_neighbours.

Theorem C83_diameter : forall L r st x y, (0 < length L)%nat -> 0 < r -> grid_coord L st (grid_h L r) x = grid_coord L st (grid_h L r) y -> Ldist L x y <= r.
Proof. exact grid_same. Qed.
Print Assumptions C83_diameter.

Theorem C83_face_refuted : exists fuel L r inside corner pick trials x0 Y, 0 < r /\ inside x0 = true /\ (forall x, inside x = true -> 0 <= vget x 0 <= 1) /\
  corner = corner1 0 1 /\ poisson fuel L r inside pick trials x0 = Some Y /\ poisson_grid fuel L r inside corner pick trials x0 = IndexErr.
Proof. exact poisson_grid_face_refuted. Qed.
Print Assumptions C83_face_refuted.

Theorem C83_wrap_refuted : exists L r tol inside corner pick trials x0 fuel Y, 0 < r /\ 0 < tol /\ inside = box1 (0 - tol) (10 + tol) /\ corner = corner1 0 10 /\ inside x0 = true /\
  (forall k l, l <> [] -> In (pick k l) l) /\ (forall k x t, In t (trials k x) -> norm2 (mv L (fst t)) = 1 /\ r <= snd t <= 2 * r) /\
  poisson_grid fuel L r inside corner pick trials x0 = Done Y /\ ~ separated L r Y.
Proof. exact poisson_grid_wrap_refuted. Qed.
Print Assumptions C83_wrap_refuted.

Theorem C83_centre_refuted : exists L r inside corner pick trials x0 fuel Y, 0 < r /\ inside = box2 0 10 /\ corner = corner2 0 10 /\ inside x0 = true /\
  (forall k l, l <> [] -> In (pick k l) l) /\ (forall k x t, In t (trials k x) -> norm2 (mv L (fst t)) = 1 /\ r <= snd t <= 2 * r) /\
  (forall x, In x Y -> in_range (grid_dims corner L r) (grid_coord L (grid_start corner L) (grid_h L r) x) = true) /\
  poisson_grid fuel L r inside corner pick trials x0 = Done Y /\ ~ separated L r Y.
Proof. exact poisson_grid_centre_refuted. Qed.
Print Assumptions C83_centre_refuted.

Example C83_case : forall fuel pick trials,
  poisson_grid fuel [[1]] 3 (fun x => (Nat.eqb (length x) 1 && box1 0 10 x)%bool) (corner1 0 10) pick trials [4] =
  match poisson fuel [[1]] 3 (fun x => (Nat.eqb (length x) 1 && box1 0 10 x)%bool) pick trials [4] with Some Y => Done Y | None => OutOfFuel end.
Proof. exact ex_grid. Qed.

(** C86: fill distance in any dimension *)
Theorem C86_exact : forall m A b L Linv hsi, inverse_of m L Linv -> forall inside Xhat, Xhat <> [] -> Forall (inP m A b) Xhat -> (forall x, inP m A b x -> inside x = true) ->
  (forall k, (k < length Xhat)%nat -> hsi_ok m (hs_rows m A b L Linv Xhat k) (hsi (hs_rows m A b L Linv Xhat k))) ->
  let d := fill_dist L Xhat (voronoi_vertex m A b L Linv hsi inside Xhat) in let eps := fro L * (INR (length (vor_all m A b L Linv hsi Xhat)) * atol) in
  (forall x, inP m A b x -> mind L Xhat x <= d + eps) /\ exists x, inP m A b x /\ mind L Xhat x = d.
Proof. exact fill_exact. Qed.
Print Assumptions C86_exact.

Example C86_case : inverse_of 2 vI vI /\ Forall (inP 2 vA vb) vX /\
  forall k, (k < length vX)%nat -> hsi_ok 2 (hs_rows 2 vA vb vI vI vX k) (vhsi (hs_rows 2 vA vb vI vI vX k)).
Proof. exact ex_voronoi. Qed.
