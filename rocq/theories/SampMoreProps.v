(** Generated by tools/mkprops.py from tools/props/SampMoreProps.spec: the property theorems. *)
Require Import Reals List Bool Arith ZArith Permutation Sorted ZArith.
From Verif Require Import RVec Num Sums DomModel DomSpec DomProofs DomMoreModel SweepProofs HullProofs HullIneqProofs ArnoldiMoreProofs LipModel LipProofs MatLib SpecProofs GrassLib SampModel PigeonLib LatinProofs PoissonProofs PoissonCases DesignProofs CoffeeProofs GeoModel GeoProofs VoronoiProofs WalkProofs ProjSatProofs SampMoreModel MinimaxProofs LloydProofs BlockProofs BlockCases SeqSampProofs.
Import ListNotations.
Local Open Scope R_scope.

Local Open Scope nat_scope.

(** C40: the SAT encoding of projection_sample *)
Theorem C40_numbering : forall N m o v, o < N -> v < N -> dec N (enc N m o v) = (m, o, v).
Proof. exact enc_dec. Qed.
Print Assumptions C40_numbering.

Theorem C40_numbering_inverse : forall N idx, 0 < N -> 1 <= idx -> exists m o v, dec N idx = (m, o, v) /\ o < N /\ v < N /\ enc N m o v = idx.
Proof. exact dec_enc. Qed.
Print Assumptions C40_numbering_inverse.

Theorem C40_numbering_bijection : forall K N idx, 1 <= idx <= K * N * N -> exists m o v, m < K /\ o < N /\ v < N /\ enc N m o v = idx /\
  forall m' o' v', o' < N -> v' < N -> enc N m' o' v' = idx -> m' = m /\ o' = o /\ v' = v.
Proof. exact enc_bijection. Qed.
Print Assumptions C40_numbering_bijection.

Theorem C40_sound : forall asg K N, 0 < K -> satisfies asg (geo_cnf K N) ->
  exists p, perms_family K N p /\ forall m o v, m < K -> o < N -> v < N -> (asg (enc N m o v) = true <-> v = p m o).
Proof. exact cnf_sound. Qed.
Print Assumptions C40_sound.

Theorem C40_complete : forall K N p, 0 < K -> perms_family K N p -> satisfies (asg_of N p) (geo_cnf K N).
Proof. exact cnf_complete. Qed.
Print Assumptions C40_complete.

Theorem C40_read : forall asg K N p m o, 0 < K -> (forall m o v, m < K -> o < N -> v < N -> (asg (enc N m o v) = true <-> v = p m o)) ->
  (forall m o, m < K -> o < N -> p m o < N) -> m < K -> o < N -> perm_of N (solution_list asg (K * N * N)) m o = Z.of_nat (p m o).
Proof. exact perm_read. Qed.
Print Assumptions C40_read.

Theorem C40_solution : forall asg K N, 0 < K -> satisfies asg (geo_cnf K N) ->
  exists p, perms_family K N p /\ forall m o, m < K -> o < N -> perm_of N (solution_list asg (K * N * N)) m o = Z.of_nat (p m o).
Proof. exact solution_is_permutations. Qed.
Print Assumptions C40_solution.

Theorem C40_block : forall asg K N p c, (forall m o v, m < K -> o < N -> v < N -> (asg (enc N m o v) = true <-> v = p m o)) -> (forall m, m < K -> c m < N) ->
  (satisfies asg (block_cnf K N c) <-> forall o, o < N -> exists m, m < K /\ p m o <> c m).
Proof. exact blocked_iff. Qed.
Print Assumptions C40_block.

Theorem C40_blocked_never : forall asg K N cs, 0 < K -> (forall c m, In c cs -> m < K -> c m < N) ->
  satisfies asg (geo_cnf K N ++ flat_map (block_cnf K N) cs) ->
  exists p, perms_family K N p /\ (forall m o, m < K -> o < N -> perm_of N (solution_list asg (K * N * N)) m o = Z.of_nat (p m o)) /\
    forall c o, In c cs -> o < N -> exists m, m < K /\ p m o <> c m.
Proof. exact blocked_never. Qed.
Print Assumptions C40_blocked_never.

Theorem C40_blocked_keeps : forall K N cs p, 0 < K -> (forall c m, In c cs -> m < K -> c m < N) -> perms_family K N p -> (forall c o, In c cs -> o < N -> exists m, m < K /\ p m o <> c m) ->
  satisfies (asg_of N p) (geo_cnf K N ++ flat_map (block_cnf K N) cs).
Proof. exact blocked_keeps. Qed.
Print Assumptions C40_blocked_keeps.

Example C40_case : let p m o := match m with 0 => o | _ => (o + 1) mod 3 end in perms_family 2 3 p /\ forall o, o < 3 -> exists m, m < 2 /\ p m o <> (fun _ => 0) m.
Proof. exact ex_family. Qed.

Local Open Scope R_scope.

(** C45: integer bisection *)
Theorem C45_correct : forall f n1 n2, (n1 < n2)%Z -> f n1 * f n2 < 0 ->
  exists n, int_bisect (Z.to_nat (n2 - n1)) f n1 n2 = BVal (if Rltb 0 (f n1) then n else (n + 1)%Z) /\ (n1 <= n < n2)%Z /\ 0 < f n * f n1 /\ f (n + 1)%Z * f n1 <= 0.
Proof. exact int_bisect_correct. Qed.
Print Assumptions C45_correct.

Theorem C45_asserts : forall fuel f n1 n2, (n2 <= n1)%Z \/ 0 <= f n1 * f n2 -> int_bisect fuel f n1 n2 = BAssert.
Proof. exact int_bisect_asserts. Qed.
Print Assumptions C45_asserts.

Theorem C45_increasing : forall f n1 n2, (n1 < n2)%Z -> f n1 < 0 -> 0 < f n2 -> (forall a b, (n1 <= a <= b)%Z -> (b <= n2)%Z -> f a <= f b) ->
  exists n, int_bisect (Z.to_nat (n2 - n1)) f n1 n2 = BVal n /\ (n1 <= n <= n2)%Z /\ 0 <= f n /\ forall k, (n1 <= k <= n2)%Z -> 0 <= f k -> (n <= k)%Z.
Proof. exact int_bisect_increasing. Qed.
Print Assumptions C45_increasing.

Theorem C45_smallest_partial : forall f n1 n2, (n1 < n2)%Z -> f n1 < 0 -> 0 < f n2 -> (forall a b, (n1 <= a <= b)%Z -> (b <= n2)%Z -> f a <= f b) -> (forall k, (n1 <= k <= n2)%Z -> f k <> 0) ->
  exists n, int_bisect (Z.to_nat (n2 - n1)) f n1 n2 = BVal n /\ 0 < f n /\ forall k, (n1 <= k <= n2)%Z -> 0 < f k -> (n <= k)%Z.
Proof. exact int_bisect_smallest_partial. Qed.
Print Assumptions C45_smallest_partial.

Theorem C45_zero_refuted : exists (f : Z -> R) n1 n2 n, (n1 < n2)%Z /\ f n1 * f n2 < 0 /\ (forall a b, (a <= b)%Z -> f a <= f b) /\ int_bisect (Z.to_nat (n2 - n1)) f n1 n2 = BVal n /\ ~ 0 < f n.
Proof. exact int_bisect_zero_refuted. Qed.
Print Assumptions C45_zero_refuted.

Theorem C45_decreasing_refuted : exists (f : Z -> R) n1 n2 n, (n1 < n2)%Z /\ f n1 * f n2 < 0 /\ (forall a b, (a <= b)%Z -> f b <= f a) /\ (forall k, f k <> 0) /\
  int_bisect (Z.to_nat (n2 - n1)) f n1 n2 = BVal n /\ exists k, (n1 <= k < n)%Z /\ 0 < f k.
Proof. exact int_bisect_decreasing_refuted. Qed.
Print Assumptions C45_decreasing_refuted.

Example C45_case : exists n, int_bisect (Z.to_nat (10 - 0)) (fun k => IZR k - 13/2) 0 10 = BVal n /\ 0 < IZR n - 13/2 /\ forall k, (0 <= k <= 10)%Z -> 0 < IZR k - 13/2 -> (n <= k)%Z.
Proof. exact ex_bisect. Qed.

(** C46: clustering minimax design *)
Theorem C46_best_partial : forall maxiter L X N xtol center Xhat, (0 < maxiter)%nat ->
  let S := scored maxiter 0 L X N xtol center Xhat (repeat O (length X)) in let D := minimax_cluster maxiter L X N xtol center Xhat in
  In Xhat S /\ In D S /\ forall Z, In Z S -> mm_dist L D X <= mm_dist L Z X.
Proof. exact cluster_best_partial. Qed.
Print Assumptions C46_best_partial.

Theorem C46_rows : forall maxiter L X N xtol center Xhat, length Xhat = N -> length (minimax_cluster maxiter L X N xtol center Xhat) = N.
Proof. exact cluster_rows. Qed.
Print Assumptions C46_rows.

Theorem C46_score : forall L Xhat X, Xhat <> [] -> X <> [] ->
  (forall x, In x X -> exists c, In c Xhat /\ Ldist L c x <= mm_dist L Xhat X) /\ exists x, In x X /\ forall c, In c Xhat -> mm_dist L Xhat X <= Ldist L c x.
Proof. exact cluster_dist. Qed.
Print Assumptions C46_score.

Theorem C46_single : forall maxiter L X xtol center x0, minimax_cluster maxiter L X 1 xtol center [x0] = [x0].
Proof. exact cluster_single. Qed.
Print Assumptions C46_single.

Theorem C46_moves_refuted : exists L X Xhat xtol center, exact_center center /\ 0 < xtol /\ forall maxiter, (0 < maxiter)%nat ->
  let D := minimax_cluster maxiter L X 2 xtol center Xhat in
  D = Xhat /\ mm_dist L (map (fun i => center 0%nat (cluster_of (assign L Xhat X) i (map (mv L) X)) (nth i Xhat [])) (seq 0 2)) X < mm_dist L D X.
Proof. exact cluster_moves_refuted. Qed.
Print Assumptions C46_moves_refuted.

Theorem C46_single_refuted : exists L X x0 xtol center y, exact_center center /\ 0 < xtol /\ forall maxiter,
  mm_dist L [y] X < mm_dist L (minimax_cluster maxiter L X 1 xtol center [x0]) X.
Proof. exact cluster_single_refuted. Qed.
Print Assumptions C46_single_refuted.

Example C46_case : exists D, minimax_cluster 3 [[1]] [[-2]; [0]; [8]; [10]] 2 (/ 100000) midrange [[0]; [10]] = D /\ length D = 2%nat /\ mm_dist [[1]] D [[-2]; [0]; [8]; [10]] <= mm_dist [[1]] [[0]; [10]] [[-2]; [0]; [8]; [10]].
Proof. exact ex_cluster. Qed.

(** C47: initial_sample *)
Theorem C47_inside : forall (P : vec -> Prop) m L Llow sample cs hs coef, convexP P -> Forall P cs -> Forall (fun c => length c = m) cs -> Forall P sample -> is_scaled_id m L = false ->
  (forall y, In y (hs (map (mv Llow) (fst (init_pts Llow cs)))) ->
     let al := coef (map (mv Llow) (fst (init_pts Llow cs))) y in
     length al = length (fst (init_pts Llow cs)) /\ Forall (fun a => 0 <= a) al /\ vsum al = 1 /\ lincomb (length Llow) (map (mv Llow) (fst (init_pts Llow cs))) al = y) ->
  let D := initial_sample m L Llow sample cs hs coef in
  Forall P D /\ map (mv Llow) D = hs (map (mv Llow) (fst (init_pts Llow cs))).
Proof. exact initial_inside. Qed.
Print Assumptions C47_inside.

Theorem C47_identity : forall m c Llow sample cs hs coef, initial_sample m (map (fun i => map (fun j => if Nat.eqb i j then c else 0) (seq 0 m)) (seq 0 m)) Llow sample cs hs coef = sample.
Proof. exact initial_identity. Qed.
Print Assumptions C47_identity.

Theorem C47_distinct_refuted : exists P m L Llow sample cs hs coef, convexP P /\ Forall P cs /\ Forall (fun c => length c = m) cs /\ is_scaled_id m L = false /\
  (forall pt, hs [pt] = [pt; pt]) /\
  (forall y, In y (hs (map (mv Llow) (fst (init_pts Llow cs)))) ->
     let al := coef (map (mv Llow) (fst (init_pts Llow cs))) y in
     length al = length (fst (init_pts Llow cs)) /\ Forall (fun a => 0 <= a) al /\ vsum al = 1 /\ lincomb (length Llow) (map (mv Llow) (fst (init_pts Llow cs))) al = y) /\
  let D := initial_sample m L Llow sample cs hs coef in length D = 2%nat /\ mv Llow (nth 0 D []) = mv Llow (nth 1 D []).
Proof. exact initial_distinct_refuted. Qed.
Print Assumptions C47_distinct_refuted.

Example C47_case : let hs := fun _ : mat => [[0]; [1]; [2]] in let coef := fun (_ : mat) (y : vec) => [1 - vget y 0 / 2; vget y 0 / 2] in
  let D := initial_sample 2 [[1; 1]] [[1; 1]] [] [[0; 0]; [1; 1]] hs coef in Forall sqP D /\ map (mv [[1; 1]]) D = [[0]; [1]; [2]].
Proof. exact ex_initial. Qed.

(** C63: sampler *)
Theorem C63_aligned : forall next feval ns s, aligned feval s ->
  exists s', draws (Some next) feval ns s = Some s' /\ aligned feval s' /\ length (sp_X s') = (length (sp_X s) + fold_right Nat.add 0 ns)%nat /\
    firstn (length (sp_X s)) (sp_X s') = sp_X s /\
    forall i, (length (sp_X s) <= i < length (sp_X s'))%nat -> nth i (sp_X s') [] = next (firstn i (sp_X s')).
Proof. exact sampler_aligned. Qed.
Print Assumptions C63_aligned.

Theorem C63_init : forall m X f, (exists s, sampler_init m (Some X) (Some f) = Some s /\ sp_X s = X /\ sp_fX s = Some f) <-> Forall (fun x => length x = m) X /\ length f = length X.
Proof. exact sampler_init_spec. Qed.
Print Assumptions C63_init.

Theorem C63_unbound_refuted : exists feval s, aligned feval s /\ forall n, draws None feval [S n] s = None.
Proof. exact sampler_unbound_refuted. Qed.
Print Assumptions C63_unbound_refuted.

Theorem C63_missing_refuted : exists m X s next feval s', sampler_init m (Some X) None = Some s /\ draws (Some next) feval [1%nat] s = Some s' /\
  exists f, sp_fX s' = Some f /\ length f <> length (sp_X s') /\ nth 0 f [] <> feval (nth 0 (sp_X s') []).
Proof. exact sampler_missing_refuted. Qed.
Print Assumptions C63_missing_refuted.

Example C63_case : exists s', draws (Some (fun X => [INR (length X)])) (fun x => vscale 2 x) [1%nat; 2%nat] (mkSampler [] None) = Some s' /\ aligned (fun x => vscale 2 x) s' /\ length (sp_X s') = 3%nat.
Proof. exact ex_sampler. Qed.

(** C79: low_rank_L *)
Theorem C79_metric : forall p m L us s VT, svd_full p m L us s VT -> forall x, length x = m ->
  norm2sq (mv (low_rank L s VT) x) <= norm2sq (mv L x) <= norm2sq (mv (low_rank L s VT) x) + atol * atol * norm2sq x.
Proof. exact low_rank_metric. Qed.
Print Assumptions C79_metric.

Theorem C79_full_partial : forall p m L us s VT, svd_full p m L us s VT -> (0 < length s)%nat -> atol < vget s 0 -> let J := low_rank L s VT in
  length J = length (filter (fun i => Rltb atol (vget s i)) (seq 0 (length s))) /\ forall c, length c = length J -> lincomb m J c = vzero m -> c = vzero (length J).
Proof. exact low_rank_full_partial. Qed.
Print Assumptions C79_full_partial.

Theorem C79_zero_refuted : exists p m L us s VT c, svd_full p m L us s VT /\ length c = length (low_rank L s VT) /\ lincomb m (low_rank L s VT) c = vzero m /\ c <> vzero (length c).
Proof. exact low_rank_zero_refuted. Qed.
Print Assumptions C79_zero_refuted.

Example C79_case : length (low_rank exL [1; 0] [[1; 0]; [0; 1]]) = 1%nat /\ norm2sq (mv (low_rank exL [1; 0] [[1; 0]; [0; 1]]) [3; 4]) <= norm2sq (mv exL [3; 4]).
Proof. exact ex_low_rank. Qed.

(** C80: maximin_block *)
Theorem C80_apart_partial : forall P L vv N xtol maxiter c1 c2 X0 d, (2 <= N)%nat -> length L <> 1%nat -> length X0 = N -> Forall P X0 ->
  Forall (good_call P L vv) (block_calls L vv N xtol maxiter X0) -> apart L d X0 ->
  let D := maximin_block maxiter L c1 c2 vv N xtol X0 in length D = N /\ Forall P D /\ apart L d D.
Proof. exact block_apart_partial. Qed.
Print Assumptions C80_apart_partial.

Theorem C80_walk_call : forall m L A b Aeq qr ords gs n Dm Xt x, walk_pre m L A b Aeq Xt qr (ords Xt) gs -> (forall x y, inP m A b x -> inP m A b y -> edist x y <= Dm) ->
  (forall i, (i < n)%nat -> clean_step m L A b Aeq Xt qr false (ords Xt) gs i (vv_walk i 0 m L A b Aeq Xt qr false (ords Xt) gs x)) ->
  good_call (inP m A b) L (fun Xt x => vv_walk n 0 m L A b Aeq Xt qr false (ords Xt) gs x) (Xt, x).
Proof. exact block_walk_call. Qed.
Print Assumptions C80_walk_call.

Theorem C80_apart_refuted : exists m L A b Aeq qr ords gs N X0, let vv := fun Xt x => vv_walk (m - length Aeq) 0 m L A b Aeq Xt qr false (ords Xt) gs x in
  length L <> 1%nat /\ length X0 = N /\ Forall (inP m A b) X0 /\ apart L (/25000)%R X0 /\
  (forall xtol maxiter c, In c (block_calls L vv N xtol maxiter X0) -> walk_pre m L A b Aeq (fst c) qr (ords (fst c)) gs) /\
  forall xtol maxiter c1 c2, (0 < maxiter)%nat -> let D := maximin_block maxiter L c1 c2 vv N xtol X0 in nth 1 D [] = nth 2 D [] /\ ~ apart L (/25000)%R D.
Proof. exact block_apart_refuted. Qed.
Print Assumptions C80_apart_refuted.

Theorem C80_row_optimal : forall (P : vec -> Prop) a c1 c2 vv N xtol maxiter X0, (2 <= N)%nat -> convexP P -> P c1 -> P c2 -> length c1 = length c2 -> (forall x, P x -> dot a c2 <= dot a x <= dot a c1) ->
  let w := dot a c1 - dot a c2 in let X := maximin_block maxiter [a] c1 c2 vv N xtol X0 in
  length X = N /\ Forall P X /\ (forall i j, (i < j < N)%nat -> w / INR (N - 1) <= Ldist [a] (nth i X []) (nth j X [])) /\
  forall Y : mat, length Y = N -> Forall P Y -> exists i j, (i < j < N)%nat /\ Ldist [a] (nth i Y []) (nth j Y []) <= w / INR (N - 1).
Proof. exact block_row_optimal. Qed.
Print Assumptions C80_row_optimal.

Example C80_case : let D := maximin_block 3 [[1; 0]; [0; 1]] [] [] exvv 2 (/ 1000000) [[0; 0]; [1/2; 0]] in length D = 2%nat /\ Forall sqP D /\ apart [[1; 0]; [0; 1]] (1/2) D.
Proof. exact ex_block. Qed.

(** C81: Lloyd's algorithm *)
Theorem C81_step_fill : forall P L verts cc Xhat F, cc_ok P L cc -> Xhat <> [] -> Forall P Xhat -> vor_cover P L Xhat (verts Xhat) ->
  (forall x, P x -> mind L Xhat x <= F) -> forall x, P x -> mind L (lloyd_step L verts cc Xhat) x <= (1 + rtol) * F + atol.
Proof. exact lloyd_step_fill. Qed.
Print Assumptions C81_step_fill.

Theorem C81_step_monotone_partial : forall P L verts cc Xhat F, cc_ok P L cc -> Xhat <> [] -> Forall P Xhat -> vor_cover P L Xhat (verts Xhat) ->
  (forall k v, (k < length Xhat)%nat -> In v (owned L Xhat (verts Xhat) k) -> nearest L Xhat k v) ->
  (forall x, P x -> mind L Xhat x <= F) -> forall x, P x -> mind L (lloyd_step L verts cc Xhat) x <= F.
Proof. exact lloyd_step_monotone_partial. Qed.
Print Assumptions C81_step_monotone_partial.

Theorem C81_fill : forall P L verts cc xtol n Xhat F, cc_ok P L cc -> Xhat <> [] -> Forall P Xhat -> 0 <= F ->
  (forall X, X <> [] -> Forall P X -> vor_cover P L X (verts X) /\ forall k, (k < length X)%nat -> owned L X (verts X) k <> []) ->
  (forall x, P x -> mind L Xhat x <= F) ->
  let D := lloyd n L verts cc xtol Xhat in length D = length Xhat /\ Forall P D /\ forall x, P x -> mind L D x <= grow n F.
Proof. exact lloyd_fill. Qed.
Print Assumptions C81_fill.

Theorem C81_vertices_cover : forall m A b L Linv hsi Xhat, inverse_of m L Linv -> Xhat <> [] -> Forall (inP m A b) Xhat ->
  (forall k, (k < length Xhat)%nat -> hsi_ok m (hs_rows m A b L Linv Xhat k) (hsi (hs_rows m A b L Linv Xhat k))) ->
  vor_cover (inP m A b) L Xhat (vor_all m A b L Linv hsi Xhat).
Proof. exact vor_all_cover. Qed.
Print Assumptions C81_vertices_cover.

Theorem C81_kept_vertices_cover : forall m A b L Linv hsi inside Xhat, inverse_of m L Linv -> Xhat <> [] -> Forall (inP m A b) Xhat -> (forall x, inP m A b x -> inside x = true) ->
  (forall k, (k < length Xhat)%nat -> hsi_ok m (hs_rows m A b L Linv Xhat k) (hsi (hs_rows m A b L Linv Xhat k))) ->
  (forall v w, In v (vor_all m A b L Linv hsi Xhat) -> In w (vor_all m A b L Linv hsi Xhat) -> edist v w <= atol -> v = w) ->
  vor_cover (inP m A b) L Xhat (voronoi_vertex m A b L Linv hsi inside Xhat).
Proof. exact voronoi_vertex_cover. Qed.
Print Assumptions C81_kept_vertices_cover.

Example C81_case : lloyd_step [[1]] (fun _ => [[0]; [1]]) cc1 [[0]] = [[1/2]] /\ forall x, u01 x -> mind [[1]] (lloyd_step [[1]] (fun _ => [[0]; [1]]) cc1 [[0]]) x <= (1 + rtol) * 1 + atol.
Proof. exact ex_lloyd. Qed.

(** C84: minimax covering *)
Theorem C84_discrete : forall L X r sel, cover_optimal L X r sel ->
  (forall x, In x X -> exists y, In y (select sel X) /\ Ldist L x y < r) /\ incl (select sel X) X /\
  forall Z, incl Z X -> (forall x, In x X -> exists y, In y Z /\ Ldist L x y < r) -> (length (select sel X) <= length Z)%nat.
Proof. exact covering_discrete. Qed.
Print Assumptions C84_discrete.

Theorem C84_feasible : forall L X r, X <> [] -> ((exists sel, cover_feasible L X r sel) <-> 0 < r).
Proof. exact covering_feasible. Qed.
Print Assumptions C84_feasible.

Theorem C84_domain : forall (P : vec -> Prop) L poisson ilp r, 0 < r -> (forall x, P x -> exists y, In y (poisson (r / 4)) /\ Ldist L x y <= r / 4) ->
  (forall X rr, X <> [] -> 0 < rr -> cover_optimal L X rr (ilp X rr)) -> forall x, P x -> exists y, In y (minimax_covering poisson ilp r) /\ Ldist L x y < 3 * r / 4.
Proof. exact covering_domain. Qed.
Print Assumptions C84_domain.

Example C84_case : cover_optimal [[1]] [[0]; [1]; [2]] (3/2) [false; true; false].
Proof. exact ex_covering. Qed.

(** C85: sequential maximin and stretched sampling *)
Theorem C85_select : forall Ls Xhat slack Xcan, Xhat <> [] -> Xcan <> [] -> slack <= 1 ->
  let Xc := select (unique_mask Xcan) Xcan in
  exists x, seq_select Ls Xhat slack Xcan = Some x /\ In x Xcan /\
    (forall y, In y Xc -> 0 <= slack -> slack * prod_dist Ls Xhat y <= prod_dist Ls Xhat x) /\
    (forall y, In y Xc -> (forall z, In z Xc -> prod_dist Ls Xhat z <= prod_dist Ls Xhat y) ->
       forall w, In w Xc -> slack * prod_dist Ls Xhat y <= prod_dist Ls Xhat w ->
       forall s, In s Xhat -> (forall s', In s' Xhat -> edist w s <= edist w s') -> forall s', In s' Xhat -> edist w s <= edist x s').
Proof. exact select_best. Qed.
Print Assumptions C85_select.

Theorem C85_new : forall Ls Xhat slack Xcan y, Xhat <> [] -> 0 < slack <= 1 -> In y (select (unique_mask Xcan) Xcan) -> 0 < prod_dist Ls Xhat y ->
  exists x, seq_select Ls Xhat slack Xcan = Some x /\ forall L s, In L Ls -> In s Xhat -> 0 < Ldist L s x.
Proof. exact select_new. Qed.
Print Assumptions C85_new.

Theorem C85_inside : forall (P : vec -> Prop) Ls Xhat slack corner u empty order vertices idx gen x, P (corner u) ->
  (forall it cs, (cs = [] \/ empty cs = false) -> Forall (fun x => P x /\ meets Ls cs x) (gen it cs)) ->
  seq_maximin Ls Xhat slack corner u empty order vertices idx gen = Some x -> P x.
Proof. exact seq_inside. Qed.
Print Assumptions C85_inside.

Theorem C85_stretch_first : forall L Ls V X v V', V X L = Some (v :: V') ->
  exists x d l X' d', stretch_cands (L :: Ls) V X None = Some (([x], d, L) :: l, X', d') /\ length l = length Ls /\ In x (v :: V') /\ d = mind L X x /\ forall y, In y (v :: V') -> mind L X y <= d.
Proof. exact stretch_first. Qed.
Print Assumptions C85_stretch_first.

Theorem C85_stretch_overwritten_refuted : exists Ls V X l X' d', stretch_cands Ls V X None = Some (l, X', d') /\ length l = 2%nat /\
  (forall Y L, V Y L = Some [[1]]) /\ let '(c, d, L) := nth 1 l ([], 0, []) in c = [[1]] /\ d = 0 /\ mind L X [1] = 1.
Proof. exact stretch_overwritten_refuted. Qed.
Print Assumptions C85_stretch_overwritten_refuted.

Theorem C85_stretch_unbound_refuted : exists Ls V X, (exists L, In L Ls /\ V X L <> None) /\ stretch_cands Ls V X None = None.
Proof. exact stretch_unbound_refuted. Qed.
Print Assumptions C85_stretch_unbound_refuted.

Theorem C85_stretch_stale_refuted : exists Ls V X l X' d', stretch_cands Ls V X None = Some (l, X', d') /\ V [[1]] (nth 1 Ls []) = None /\
  exists c d, nth 1 l ([], 0, []) = (c, d, nth 1 Ls []) /\ nth 0 l ([], 0, []) = (c, d, nth 0 Ls []) /\ d <> mind (nth 1 Ls []) X (nth 0 c []).
Proof. exact stretch_stale_refuted. Qed.
Print Assumptions C85_stretch_stale_refuted.

Example C85_case : exists x, seq_select [[[1]]] [[0]; [1]] (9/10) [[1/2]; [1/4]; [2]] = Some x /\ forall L s, In L [[[1]]] -> In s [[0]; [1]] -> 0 < Ldist L s x.
Proof. exact ex_select. Qed.

Example C85_case_domain : forall x, seq_maximin [[[1]]] [[0]] (9/10) (fun u => u) [0] (fun _ => false) (fun i => [0%nat]) [[[1]]] [[0%nat]] (fun _ cs => match cs with (_, v) :: _ => [v] | [] => [] end) = Some x -> x = [1].
Proof. exact ex_seq_inside. Qed.

Example C85_case_stretch : exists x d l X' d', stretch_cands [[[1]]; [[2]]] (fun _ _ => Some [[1]; [3]]) [[0]] None = Some (([x], d, [[1]]) :: l, X', d') /\ length l = 1%nat /\ In x [[1]; [3]] /\ 3 <= d.
Proof. exact ex_stretch. Qed.

(** C87: minimax_scale *)
Theorem C87_inside : forall P L verts c Xhat npoints brent, convex P -> P c -> Forall P Xhat -> (0 < npoints)%nat -> (forall br a, brent br = Some a -> 0 <= a <= 1) ->
  let D := minimax_scale L verts c Xhat npoints brent in length D = length Xhat /\ Forall P D.
Proof. exact scale_inside. Qed.
Print Assumptions C87_inside.

Theorem C87_score_refuted : exists Xhat alpha x, Forall u01 Xhat /\ 0 <= alpha <= 1 /\ u01 x /\
  score_full [[1]] (vverts1 0 1) [1/2] Xhat alpha < mind [[1]] (scale_design [1/2] Xhat alpha) x.
Proof. exact scale_score_refuted. Qed.
Print Assumptions C87_score_refuted.

Example C87_case : let D := minimax_scale [[1]] (vverts1 0 1) [1/2] [[0]; [1/5]; [9/10]] 20 (fun _ => Some (9/10)) in length D = 3%nat /\ Forall u01 D.
Proof. exact ex_scale. Qed.
