(** Generated by tools/mkprops.py from tools/props/DomMoreProps.spec: the property theorems. *)
Require Import Reals List Bool Arith ZArith Permutation.
From Verif Require Import RVec Num Sums DomModel DomSpec DomProofs NormProofs DomOpsProofs DomExamples DomMoreModel SweepProofs CvxProofs HullProofs BoxPredProofs SampleProofs QuadProofs DomMoreExamples ChebProofs HullIneqProofs TensorModel TensorProofs MoreCases.
Import ListNotations.
Local Open Scope R_scope.

(** C08: samples of every domain class lie in the domain, as many as asked for *)
Theorem C08_nonpositive : forall draw samp, (draw <= 0)%Z -> sample draw samp = Some [].
Proof. exact sample_nonpositive. Qed.
Print Assumptions C08_nonpositive.

Theorem C08_wrapper : forall (S : vec -> Prop) samp,
  (forall n X, samp n = Some X -> length X = n /\ Forall S X) ->
  forall draw X, sample draw samp = Some X -> length X = Z.to_nat draw /\ Forall S X.
Proof. exact sample_wrapper. Qed.
Print Assumptions C08_wrapper.

Theorem C08_box : forall l u rows, length l = length u -> Forall (unit_row (length l)) rows ->
  match box_sample_ l u rows with
  | None => exists i, (i < length l)%nat /\ vget u i < vget l i
  | Some X => length X = length rows /\ Forall (member (box_of l u)) X
  end.
Proof. exact box_sample_inside. Qed.
Print Assumptions C08_box.

Example C08_box_case : box_sample_ [0; 1] [2; 1] [[1/2; 1/4]; [0; 0]] = Some [[1; 1]; [0; 1]] /\ box_sample_ [0; 1] [2; 0] [[1/2; 1/4]] = None.
Proof. exact ex_box_sample. Qed.

Theorem C08_point : forall d x n tol, dcls d = Point -> dim d = length x -> lb d = map Fin x ->
  length (point_sample x n) = n /\ Forall (fun y => inside1 d y tol = true) (point_sample x n).
Proof. exact point_sample_inside. Qed.
Print Assumptions C08_point.

Theorem C08_normal : forall mean L Linv clip fuel rng0 rng draw X,
  let m := length mean in
  length L = m -> Forall (fun r => length r = m) L -> 
  (forall v, length v = m -> mv Linv (mv L v) = v) ->
  (forall c, clip = Some c -> 0 < c) -> (forall i, length (rng0 i) = m) -> (forall k i, length (rng k i) = m) ->
  normal_sample mean L clip fuel rng0 rng draw = Some X ->
  length X = draw /\ Forall (member (normal_dom mean Linv clip)) X.
Proof. exact normal_sample_inside. Qed.
Print Assumptions C08_normal.

Example C08_normal_case : normal_sample [1] [[2]] (Some 4) 5 (fun _ => [3]) (fun _ _ => [1]) 2 = Some [[3]; [3]] /\
  member (normal_dom [1] [[1/2]] (Some 4)) [3].
Proof. exact ex_normal. Qed.

Theorem C08_reject : forall fuel k clip rng X Y, reject_loop fuel k clip rng X = Some Y -> length Y = length X /\
  forall i, (i < length X)%nat -> norm2sq (nth i Y []) <= clip /\
    (norm2sq (nth i X []) <= clip -> nth i Y [] = nth i X []) /\
    (clip < norm2sq (nth i X []) -> exists j, (k <= j)%nat /\ nth i Y [] = rng j i /\ forall j', (k <= j' < j)%nat -> clip < norm2sq (rng j' i)).
Proof. exact reject_first. Qed.
Print Assumptions C08_reject.

Example C08_reject_case : exists Y, reject_loop 2 0 4 (fun k i => [INR k]) [[1]; [3]] = Some Y /\ nth 0 Y [] = [1] /\ nth 1 Y [] = [INR 0].
Proof. exact ex_reject. Qed.

(** Hit and run: with an exact closest point solver every sample is inside within the tolerance. *)
Theorem C08_hit_and_run : forall d nlb nub tol L start is_pt closest ext dirs us mdim cen perm st draw X,
  norm_ok nlb nub d -> dcls d <> Point -> 0 < tol -> Forall (fun r => length r = dim d) L ->
  (forall x0 x, closest x0 = Some x -> length x0 = dim d /\ closest_returns nlb nub d tol L x0 x) ->
  (forall x, start = Some x -> relaxed d tol x) -> relaxed d tol cen -> Permutation perm (seq 0 (3 * draw)) ->
  (forall x, st = Some x -> relaxed d tol x) ->
  euclid_sample start is_pt closest ext dirs us mdim cen perm st draw = Some X ->
  length X = draw /\ Forall (fun x => inside1 d x tol = true) X.
Proof. exact linquad_sample_in. Qed.
Print Assumptions C08_hit_and_run.

Example C08_hit_and_run_case : norm_ok [Fin 0] [Fin 1] (box_of [0] [1]) /\ dcls (box_of [0] [1]) <> Point /\
  closest_returns [Fin 0] [Fin 1] (box_of [0] [1]) (1/10) [[1]] [1/2] [1/2] /\ relaxed (box_of [0] [1]) (1/10) [1/2].
Proof. exact ex_hitrun_hyp. Qed.

Example C08_hit_and_run_run : exists X, euclid_sample (Some [1]) false (fun x => Some x) (fun _ _ => Some (Fin (1/2))) (fun _ => [1]) (fun _ => 1/4) 1 [1] [2; 0; 1]%nat None 1 = Some X /\ X = [[1/4]].
Proof. exact ex_hitrun. Qed.

Theorem C08_hit_and_run_chord : forall (P : vec -> Prop) start closest ext dirs us mdim recurse k x0 a b,
  (0 < mdim)%nat -> (0 < recurse)%nat -> ext x0 (vscale (-1) (dirs k)) = Some (Fin a) -> ext x0 (dirs k) = Some (Fin b) ->
  1/10000000 < a + b -> 0 <= us k <= 1 -> (forall t, - a <= t <= b -> P (vadd x0 (vscale t (dirs k)))) -> (forall x, P x -> closest x = Some x) ->
  exists t, - a <= t <= b /\ t - - a = us k * (b - - a) /\
    let x1 := vadd x0 (vscale t (dirs k)) in P x1 /\ hit_and_run start false closest ext dirs us mdim recurse k (Some x0) = (Some x1, Some x1, S k).
Proof. exact hit_run_chord. Qed.
Print Assumptions C08_hit_and_run_chord.

Example C08_hit_and_run_chord_case : exists t, - (1/4) <= t <= 3/4 /\ t - - (1/4) = (1/2) * (3/4 - - (1/4)) /\
  let x1 := vadd [1/4] (vscale t [1]) in (length x1 = 1%nat /\ 0 <= vget x1 0 <= 1) /\
  hit_and_run None false (fun x => Some x) (fun x p => Some (Fin (if Rltb (vget p 0) 0 then vget x 0 else 1 - vget x 0))) (fun _ => [1]) (fun _ => 1/2) 1 3 0 (Some [1/4]) = (Some x1, Some x1, 1%nat).
Proof. exact ex_hit_run_chord. Qed.

Theorem C08_tensor : forall fs Xs draw tol,
  Forall2 (fun f X => length X = draw /\ Forall (fun x => inside1 (ldom f) x tol = true) X) fs Xs ->
  length (tensor_rows Xs draw) = draw /\ Forall (fun x => einside (Tensor fs) x tol = true) (tensor_rows Xs draw).
Proof. exact tensor_rows_in. Qed.
Print Assumptions C08_tensor.

Example C08_tensor_case : tensor_rows [[[1]; [2]]; [[3; 4]; [5; 6]]] 2 = [[1; 3; 4]; [2; 5; 6]].
Proof. exact ex_tensor_rows. Qed.

Theorem C08_hull_two_points : forall x0 x1 us, length x0 = length x1 -> Forall (fun a => 0 <= a < 1) us ->
  length (hull_two_sample x0 x1 us) = length us /\ Forall (convex_comb [x0; x1] (length x0)) (hull_two_sample x0 x1 us).
Proof. exact hull_two_in. Qed.
Print Assumptions C08_hull_two_points.

(** Sampling a low dimensional hull goes through to_linineq, which forgets lb and ub: points outside the
    hull domain pass the membership test of the domain being sampled. *)
Theorem C08_hull_refuted : exists x c y tol, dom_wf c /\ 0 < tol /\ length x = dim c /\
  inside1 (hull1_to_linineq x c) y tol = true /\ ~ relaxed c 1 y.
Proof. exact to_linineq_refuted. Qed.
Print Assumptions C08_hull_refuted.

(** C11: sweeps stay in the domain *)
Theorem C11_sweep_partial : forall d tol stol Q n x p X y,
  dom_wf d -> proper d -> dcls d <> Point -> 0 < tol -> 0 < stol -> length p = dim d -> member d x ->
  orth_contract (dim d) (dAeq d) Q ->
  let p' := proj_out Q p in
  ineq_leaves_free d x p' -> quad_leaves_free d x p' ->
  ineq_leaves_free d x (vscale (-1) p') -> quad_leaves_free d x (vscale (-1) p') ->
  sweep d tol stol Q n x p = Some (X, y) ->
  length X = n /\ (2 <= n)%nat /\ exists a1 a2, 0 <= a1 /\ 0 <= a2 /\
    (forall t, member d (along x p' t) <-> - a2 <= t <= a1) /\
    (forall k, (k < n)%nat -> nth k X [] = along x p' (a1 - INR k / INR (n - 1) * (a1 + a2)) /\ member d (nth k X [])) /\
    (0 < (a1 + a2) * norm2 p' -> exists ys, y = Some ys /\ length ys = n /\
       forall k, (k < n)%nat -> vget ys k = vget ys 0 + INR k / INR (n - 1) * ((a1 + a2) * norm2 p')).
Proof. exact sweep_correct. Qed.
Print Assumptions C11_sweep_partial.

Example C11_case : dom_wf ex_tri /\ proper ex_tri /\ dcls ex_tri <> Point /\ member ex_tri [1; 1] /\
  orth_contract (dim ex_tri) (dAeq ex_tri) [] /\
  (let p' := proj_out [] [1; 1/2] in
   ineq_leaves_free ex_tri [1;1] p' /\ quad_leaves_free ex_tri [1;1] p' /\
   ineq_leaves_free ex_tri [1;1] (vscale (-1) p') /\ quad_leaves_free ex_tri [1;1] (vscale (-1) p')).
Proof. exact ex_sweep_case. Qed.

Theorem C11_corner_sweep : forall d c1 c2 n, dom_wf d -> member d c1 -> member d c2 -> (2 <= n)%nat ->
  length (sweep_points c1 c2 n) = n /\ Forall (member d) (sweep_points c1 c2 n) /\
  nth 0 (sweep_points c1 c2 n) [] = c1 /\ nth (n - 1) (sweep_points c1 c2 n) [] = c2.
Proof. exact sweep_points_member. Qed.
Print Assumptions C11_corner_sweep.

Theorem C11_refuted : exists d tol stol n x p X y, dom_wf d /\ proper d /\ dcls d <> Point /\ 0 < tol /\ 0 < stol /\
  length p = dim d /\ member d x /\ sweep d tol stol [] n x p = Some (X, y) /\
  exists z, In z X /\ ~ relaxed d 1 z.
Proof. exact sweep_refuted. Qed.
Print Assumptions C11_refuted.

(** C12: grids *)
Theorem C12_exact : forall d l u n tol, dom_wf d -> dcls d <> Point -> lb d = map Fin l -> ub d = map Fin u ->
  exists X, sample_grid d n tol = Some X /\
    forall x, In x X <-> (length x = dim d /\ (forall i, (i < dim d)%nat -> on_grid (vget l i) (vget u i) n (vget x i)) /\ relaxed d tol x).
Proof. exact sample_grid_exact. Qed.
Print Assumptions C12_exact.

Example C12_case : exists X, sample_grid ex_tri 3 (1/10) = Some X /\ In [1; 2] X /\ ~ In [2; 2] X /\ ~ In [1/2; 1/2] X.
Proof. exact ex_grid. Qed.

Theorem C12_box_count : forall l u n tol, length l = length u -> 0 < tol -> (forall i, (i < length l)%nat -> vget l i < vget u i) ->
  exists X, sample_grid (box_of l u) n tol = Some X /\ length X = (n ^ length l)%nat /\ NoDup X.
Proof. exact sample_grid_box. Qed.
Print Assumptions C12_box_count.

Example C12_box_case : exists X, sample_grid (box_of [0; 1] [1; 3]) 3 (1/10) = Some X /\ length X = 9%nat /\ NoDup X.
Proof. exact ex_grid_box. Qed.

(** C14: constrained least squares *)
Theorem C14_actual_minimiser : forall nlb nub d A b x, norm_ok nlb nub d -> Forall (fun r => length r = dim d) A -> length b = length A ->
  cls_returns nlb nub d A b x ->
  let b' := vadd b (vscale 2 (mv A (center nlb nub))) in
  member d x /\ forall w, member d w -> norm2 (vsub (mv A x) b') <= norm2 (vsub (mv A w) b').
Proof. exact cls_actual. Qed.
Print Assumptions C14_actual_minimiser.

Theorem C14_partial : forall nlb nub d A b x, norm_ok nlb nub d -> Forall (fun r => length r = dim d) A -> length b = length A ->
  Forall (fun v => v = 0) (mv A (center nlb nub)) -> cls_returns nlb nub d A b x ->
  member d x /\ forall w, member d w -> norm2 (vsub (mv A x) b) <= norm2 (vsub (mv A w) b).
Proof. exact cls_correct_if_centred. Qed.
Print Assumptions C14_partial.

Theorem C14_refuted : exists nlb nub d A b x w, norm_ok nlb nub d /\ Forall (fun r => length r = dim d) A /\ length b = length A /\
  cls_returns nlb nub d A b x /\ member d w /\ norm2 (vsub (mv A w) b) < norm2 (vsub (mv A x) b).
Proof. exact cls_refuted. Qed.
Print Assumptions C14_refuted.

Example C14_case : cls_returns [Fin 0] [Fin 2] ex_cls [[1]] [0] [2].
Proof. exact ex_cls_returns. Qed.

(** C15: hull membership *)
Theorem C15_complete : forall h x al tol, hull_wf h -> nnls_contract h x al -> 0 < tol ->
  convex_comb (hX h) (dim (hcon h)) x -> relaxed (hcon h) tol x -> hull_isinside h al x tol = true.
Proof. exact hull_complete. Qed.
Print Assumptions C15_complete.

Theorem C15_sound_partial : forall h x al tol, hull_wf h -> nnls_contract h x al -> vsum al = 1 ->
  hull_isinside h al x tol = true ->
  relaxed (hcon h) tol x /\ exists y, convex_comb (hX h) (dim (hcon h)) y /\ norm2 (vsub x y) < tol.
Proof. exact hull_sound_partial. Qed.
Print Assumptions C15_sound_partial.

Theorem C15_refuted : exists h x al tol, hull_wf h /\ nnls_contract h x al /\ 0 < tol /\ hull_isinside h al x tol = true /\
  forall y, convex_comb (hX h) (dim (hcon h)) y -> 1 <= norm2 (vsub x y).
Proof. exact hull_refuted. Qed.
Print Assumptions C15_refuted.

Example C15_case : hull_wf ex_hull /\ nnls_contract ex_hull [1] [1/2; 1/2] /\
  convex_comb (hX ex_hull) (dim (hcon ex_hull)) [1] /\ relaxed (hcon ex_hull) (1/100) [1].
Proof. exact ex_hull_case. Qed.

(** C05 for hulls *)
Theorem C05_hull_add : forall h c x tol al, hull_wf h -> dom_wf c -> proper (hcon h) -> proper c ->
  dim c = dim (hcon h) -> dcls c <> Point ->
  hull_isinside (hull_add h c) al x tol = (hull_isinside h al x tol && inside1 c x tol)%bool.
Proof. exact hull_add_conj. Qed.
Print Assumptions C05_hull_add.

Theorem C05_and_hull_refuted : exists d h x tol, dom_wf d /\ dcls d <> Point /\ hull_wf h /\ 0 < tol /\ inside1 (and_hull d h) x tol = true /\
  forall y, convex_comb (hX h) (dim (hcon h)) y -> 1 <= norm2 (vsub x y).
Proof. exact and_hull_refuted. Qed.
Print Assumptions C05_and_hull_refuted.

(** C16: predicates of box domains *)
Theorem C16_empty : forall l u, box_bounds l u -> (any_gt l u = true <-> ~ exists x, in_box l u x).
Proof. exact is_empty_spec. Qed.
Print Assumptions C16_empty.

Theorem C16_point : forall l u tol, box_bounds l u -> 0 < tol -> (exists x, in_box l u x) ->
  (all_close l u tol = true <-> forall x y i, in_box l u x -> in_box l u y -> (i < length l)%nat -> Rabs (vget x i - vget y i) < tol).
Proof. exact is_point_spec. Qed.
Print Assumptions C16_point.

Theorem C16_unbounded : forall l u, box_bounds l u -> (exists x, in_box l u x) ->
  (any_inf l u = true <-> forall M, exists x i, in_box l u x /\ (i < length l)%nat /\ M < Rabs (vget x i)).
Proof. exact is_unbounded_spec. Qed.
Print Assumptions C16_unbounded.

Theorem C16_history_partial : forall l u tol qs, Forall (fun q => asks_empty q = false) qs ->
  fst (run_queries l u tol qs fresh) = map (truth l u tol) qs.
Proof. exact history_partial. Qed.
Print Assumptions C16_history_partial.

Theorem C16_history_empty : forall l u tol qs i, nth_error qs i = Some QEmpty ->
  nth_error (fst (run_queries l u tol qs fresh)) i = Some (any_gt l u).
Proof. exact history_empty. Qed.
Print Assumptions C16_history_empty.

Theorem C16_history_refuted : exists l1 u1 l2 u2 tol, 0 < tol /\ box_bounds l1 u1 /\ box_bounds l2 u2 /\
  (forall x y i, in_box l1 u1 x -> in_box l1 u1 y -> (i < length l1)%nat -> Rabs (vget x i - vget y i) < tol) /\
  fst (run_queries l1 u1 tol [QEmpty; QPoint] fresh) = [false; false] /\
  fst (run_queries l1 u1 tol [QPoint; QEmpty] fresh) = [true; false] /\
  (forall M, exists x i, in_box l2 u2 x /\ (i < length l2)%nat /\ M < Rabs (vget x i)) /\
  fst (run_queries l2 u2 tol [QSample; QUnb] fresh) = [false; false].
Proof. exact history_refuted. Qed.
Print Assumptions C16_history_refuted.

Example C16_case : let l := [Fin 0; Fin 0] in let u := [Fin 1; PInf] in
  box_bounds l u /\ in_box l u [1; 5] /\ any_gt l u = false /\ any_inf l u = true /\ all_close l u (/ 10) = false /\
  fst (run_queries l u (/ 10) [QUnb; QPoint; QUnb] fresh) = [true; false; true].
Proof. exact box_pred_case. Qed.

(** C17: quadrature *)
Theorem C17_gauss : forall n ew ev a b, eigh_contract n (jacobi n) ew ev -> a <= b ->
  length (gauss_x ew a b) = n /\ length (gauss_w ev a b) = n /\
  Forall (fun x => a <= x <= b) (gauss_x ew a b) /\ Forall (fun w => 0 <= w) (gauss_w ev a b) /\
  vsum (gauss_w ev a b) = b - a.
Proof. exact gauss_correct. Qed.
Print Assumptions C17_gauss.

Example C17_gauss_case : let g := gbeta 1 in let s := sqrt (1/2) in
  eigh_contract 2 (jacobi 2) [- g; g] [[s; - s]; [s; s]] /\ g * g = 1/3.
Proof. exact ex_gauss2. Qed.

Example C17_gauss_rule_case : exists x w, length x = 2%nat /\ Forall (fun t => 3 <= t <= 5) x /\ vsum w = 2 /\ vget x 1 - vget x 0 = 2 * gbeta 1 /\ w = [1; 1].
Proof. exact ex_gauss2_rule. Qed.

Theorem C17_rule_inside : forall fuel d tol rules nlb nub N q res, length nlb = dim d -> ordered nlb nub -> gauss_rules nlb nub rules ->
  (Nat.pow q (dim d) <= N)%nat ->
  quadrature_gauss fuel d tol rules N q = Some res ->
  (length res <= N)%nat /\ Forall (fun pw => inside1 d (fst pw) tol = true /\ 0 <= snd pw) res.
Proof. exact quadrature_gauss_correct. Qed.
Print Assumptions C17_rule_inside.

Theorem C17_box : forall fuel l u tol rules N q, ordered l u -> 0 < tol -> gauss_rules l u rules ->
  exists res, quadrature_gauss fuel (box_of l u) tol rules N q = Some res /\ length res = Nat.pow q (length l) /\
    vsum (map snd res) = rprod (vsub u l) /\ Forall (fun pw => member (box_of l u) (fst pw)) res.
Proof. exact quadrature_box. Qed.
Print Assumptions C17_box.

Example C17_box_case : exists rules res, quadrature_gauss 7 (box_of [3; 0] [5; 2]) (1/10) (fun _ => rules) 4 2 = Some res /\ length res = 4%nat /\
  vsum (map snd res) = 4 /\ Forall (fun pw => member (box_of [3; 0] [5; 2]) (fst pw)) res.
Proof. exact ex_quad_box. Qed.

Theorem C17_points_per_axis : forall N m, (1 <= N)%nat -> (1 <= m)%nat -> (Nat.pow (quad_q N m) m <= N)%nat.
Proof. exact quad_q_bound. Qed.
Print Assumptions C17_points_per_axis.

Theorem C17_monte_carlo : forall N vol, (1 <= N)%nat -> vsum (mc_weights N vol) = vol /\ length (mc_weights N vol) = N.
Proof. exact mc_weights_sum. Qed.
Print Assumptions C17_monte_carlo.

(** C18: lognormal domains *)
Theorem C18_truncated_partial : forall offset scaling nlb nub y, 0 <= scaling -> nlb <= y <= nub ->
  between (logn_lb offset scaling (Some (nlb, nub))) (logn_ub offset scaling (Some (nlb, nub))) (logn_sample offset scaling y).
Proof. exact logn_truncated. Qed.
Print Assumptions C18_truncated_partial.

Theorem C18_untruncated_partial : forall offset scaling y, 0 <= scaling -> 0 <= offset ->
  between (logn_lb offset scaling None) (logn_ub offset scaling None) (logn_sample offset scaling y).
Proof. exact logn_untruncated. Qed.
Print Assumptions C18_untruncated_partial.

Example C18_case : between (logn_lb 1 2 (Some (-1, 1))) (logn_ub 1 2 (Some (-1, 1))) (logn_sample 1 2 0) /\ logn_sample 1 2 0 = 3.
Proof. exact ex_logn. Qed.

Theorem C18_negative_scaling : forall offset scaling nlb nub y, scaling < 0 -> nlb < nub -> nlb <= y <= nub ->
  ~ between (logn_lb offset scaling (Some (nlb, nub))) (logn_ub offset scaling (Some (nlb, nub))) (logn_sample offset scaling y).
Proof. exact logn_negative_scaling. Qed.
Print Assumptions C18_negative_scaling.

Theorem C18_refuted : exists offset scaling y, 0 < scaling /\
  ~ between (logn_lb offset scaling None) (logn_ub offset scaling None) (logn_sample offset scaling y).
Proof. exact logn_refuted. Qed.
Print Assumptions C18_refuted.

(** C66: closest point *)
Theorem C66_closest_point : forall nlb nub d tol L x0 x, norm_ok nlb nub d -> dcls d <> Point -> 0 <= tol ->
  Forall (fun r => length r = dim d) L -> length x0 = dim d ->
  closest_returns nlb nub d tol L x0 x ->
  (relaxed d tol x0 /\ x = x0) \/
  (member d x /\ forall w, member d w -> norm2 (mv L (vsub x x0)) <= norm2 (mv L (vsub w x0))).
Proof. exact closest_correct. Qed.
Print Assumptions C66_closest_point.

Example C66_case : closest_returns [Fin 0] [Fin 2] ex_cls (1/100) [[1]] [5] [2].
Proof. exact ex_closest. Qed.

(** C67: corners of constraint defined domains *)
Theorem C67_corner_partial : forall nlb nub d p x, norm_ok nlb nub d -> length p = dim d ->
  corner_returns nlb nub d p x -> member d x /\ forall w, member d w -> dot p w <= dot p x.
Proof. exact corner_correct. Qed.
Print Assumptions C67_corner_partial.

Example C67_case : corner_returns [Fin 0] [Fin 2] ex_cls [-1] [0].
Proof. exact ex_corner. Qed.

Theorem C67_refuted : exists nlb nub d p x w, dom_wf d /\ length nlb = dim d /\ length nub = dim d /\
  uniform (lb d) /\ uniform (ub d) /\ oriented nlb nub /\ length p = dim d /\
  corner_returns nlb nub d p x /\ ~ relaxed d 1 x /\ member d w.
Proof. exact corner_offcentre_refuted. Qed.
Print Assumptions C67_refuted.

(** C68: extent of a hull *)
Theorem C68_step : forall h x p beta, hull_wf h -> length x = dim (hcon h) -> length p = dim (hcon h) ->
  (hull_step h x p beta <-> convex_comb (hX h) (dim (hcon h)) (along x p beta)).
Proof. exact hull_step_spec. Qed.
Print Assumptions C68_step.

Theorem C68_partial : forall h x p e, hull_wf h -> length x = dim (hcon h) -> length p = dim (hcon h) ->
  hull_extent_returns h x p e ->
  convex_comb (hX h) (dim (hcon h)) (along x p e) /\
  forall t, convex_comb (hX h) (dim (hcon h)) (along x p t) -> t <= e.
Proof. exact hull_extent_partial. Qed.
Print Assumptions C68_partial.

Theorem C68_refuted : exists h x p e, hull_wf h /\ length x = dim (hcon h) /\ length p = dim (hcon h) /\
  convex_comb (hX h) (dim (hcon h)) x /\ member (hcon h) x /\ hull_extent_returns h x p e /\ ~ relaxed (hcon h) (1/2) (along x p e).
Proof. exact hull_extent_refuted. Qed.
Print Assumptions C68_refuted.

(** C69: conversion of a hull to inequalities *)
Theorem C69_collinear_partial : forall m X q P x, collinear_data m X q P -> length x = m ->
  (member (interval_dom m X q P) x <-> convex_comb X m x).
Proof. exact interval_exact. Qed.
Print Assumptions C69_collinear_partial.

Example C69_case : collinear_data 2 [[0; 0]; [2; 2]; [1; 1]] [s2; s2] [[s2; - s2]] /\ convex_comb [[0; 0]; [2; 2]; [1; 1]] 2 [3/2; 3/2].
Proof. exact ex_collinear. Qed.

Theorem C69_refuted : exists x c y tol, dom_wf c /\ 0 < tol /\ length x = dim c /\
  inside1 (hull1_to_linineq x c) y tol = true /\ ~ relaxed c 1 y.
Proof. exact to_linineq_refuted. Qed.
Print Assumptions C69_refuted.

(** C70: lognormal density *)
Theorem C70_density_iff : forall mean cov offset scaling, 0 < cov -> 0 < scaling ->
  (is_logn_density mean cov offset scaling (logn_pdf mean cov offset scaling) <-> scaling * scaling = cov).
Proof. exact logn_pdf_spec. Qed.
Print Assumptions C70_density_iff.

Example C70_case : is_logn_density 0 4 1 2 (logn_pdf 0 4 1 2) /\ ~ is_logn_density 0 4 0 1 (logn_pdf 0 4 0 1).
Proof. exact ex_logn_pdf. Qed.

(** C71: Chebyshev center *)
Theorem C71_inside : forall d x r, dom_wf d -> quads d = [] -> cheb_returns d x r -> (exists y, member d y) ->
  0 <= r /\ member d x /\ forall z, ball x r z -> sat_eq0 (dAeq d) (dbeq d) z -> member d z.
Proof. exact cheb_inside. Qed.
Print Assumptions C71_inside.

Theorem C71_largest : forall d x r y s, dom_wf d -> quads d = [] -> dAeq d = [] -> cheb_returns d x r -> 0 <= s ->
  length y = dim d -> (forall z, ball y s z -> member d z) -> s <= r.
Proof. exact cheb_largest. Qed.
Print Assumptions C71_largest.

Example C71_case : dom_wf ex_cut /\ quads ex_cut = [] /\ dAeq ex_cut = [] /\ cheb_returns ex_cut [1/2] (1/2) /\ member ex_cut [1].
Proof. exact ex_cheb. Qed.

Theorem C71_empty_refuted : exists d x r, dom_wf d /\ quads d = [] /\ cheb_returns d x r /\ r < 0 /\ ~ member d x /\ forall y, ~ member d y.
Proof. exact cheb_empty_refuted. Qed.
Print Assumptions C71_empty_refuted.
