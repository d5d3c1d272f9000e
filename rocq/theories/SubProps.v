(** Generated by tools/mkprops.py from tools/props/SubProps.spec: the property theorems. *)
Require Import Reals List Bool Arith ZArith Permutation ZArith Ascii.
From Verif Require Import RVec Num Sums DomModel DomMoreModel SweepProofs HullProofs HullIneqProofs MatLib SpecProofs BasisModel LipModel LipConstProofs LipFitProofs GrassLib SubModel ShadowProofs ActiveProofs EntropyProofs LocalLinProofs LeastSq NonlinProofs InitProofs PgfProofs MoreCases.
Import ListNotations.
Local Open Scope R_scope.

Local Open Scope R_scope.

(** C53: active subspace *)
Theorem C53_outer_product : forall svd m grads wo U s C,
  Forall (fun g => length g = m) grads -> (forall v, wo = Some v -> length v = length grads /\ Forall (fun a => 0 <= a) v) ->
  (exists vs, svd_full m (as_cols (as_weights grads wo) grads) (fst (svd (as_cols (as_weights grads wo) grads))) (snd (svd (as_cols (as_weights grads wo) grads))) vs) ->
  as_fit svd m grads wo = (U, s, C) ->
  length s = m /\ sq m C /\
  (forall i j, (i < m)%nat -> (j < m)%nat -> mget C i j = outer_avg (as_weights grads wo) grads i j) /\
  (forall k, (k < m)%nat -> 0 <= vget s k) /\ (forall i j, (i <= j < m)%nat -> vget s j <= vget s i).
Proof. exact as_C_correct. Qed.
Print Assumptions C53_outer_product.

Theorem C53_columns_partial : forall svd m grads wo U s C,
  Forall (fun g => length g = m) grads -> (forall v, wo = Some v -> length v = length grads /\ Forall (fun a => 0 <= a) v) ->
  (exists vs, svd_full m (as_cols (as_weights grads wo) grads) (fst (svd (as_cols (as_weights grads wo) grads))) (snd (svd (as_cols (as_weights grads wo) grads))) vs) ->
  as_fit svd m grads wo = (U, s, C) ->
  length U = m /\ Forall (fun u => length u = m) U /\
  (forall k, (k < m)%nat -> mv C (nth k U []) = vscale (vget s k ^ 2) (nth k U []) /\ 0 <= mean_slope (nth k U []) grads /\
     (norm2 (nth k U []) = 1 \/ nth k U [] = vzero m) /\ (norm2 (nth k U []) = 1 <-> mean_slope (nth k U []) grads <> 0)) /\
  (forall j k, (j < m)%nat -> (k < m)%nat -> j <> k -> dot (nth j U []) (nth k U []) = 0) /\
  ((forall k, (k < m)%nat -> mean_slope (nth k U []) grads <> 0) -> onb m U /\ C = spec m (map (fun a => a ^ 2) s) U).
Proof. exact as_U_partial. Qed.
Print Assumptions C53_columns_partial.

Theorem C53_optimal : forall svd m grads wo U s C n vs,
  Forall (fun g => length g = m) grads -> (forall v, wo = Some v -> length v = length grads /\ Forall (fun a => 0 <= a) v) ->
  (exists vs, svd_full m (as_cols (as_weights grads wo) grads) (fst (svd (as_cols (as_weights grads wo) grads))) (snd (svd (as_cols (as_weights grads wo) grads))) vs) ->
  as_fit svd m grads wo = (U, s, C) ->
  length vs = n -> (n <= m)%nat -> Forall (fun v => length v = m) vs -> orthonormal vs ->
  rsum n (fun j => quad C (nth j vs [])) <= rsum n (fun k => vget s k ^ 2) /\
  ((forall k, (k < n)%nat -> mean_slope (nth k U []) grads <> 0) -> rsum n (fun j => quad C (nth j U [])) = rsum n (fun k => vget s k ^ 2)).
Proof. exact as_fit_optimal. Qed.
Print Assumptions C53_optimal.

Theorem C53_ky_fan : forall m w us (s : vec) n vs, onb m us -> length w = m -> (forall k, (k < m)%nat -> 0 <= vget w k) -> (forall i j, (i <= j < m)%nat -> vget w j <= vget w i) ->
  length vs = n -> (n <= m)%nat -> Forall (fun v => length v = m) vs -> orthonormal vs ->
  rsum n (fun j => quad (spec m w us) (nth j vs [])) <= rsum n (vget w) /\ rsum n (fun j => quad (spec m w us) (nth j us [])) = rsum n (vget w).
Proof. exact as_optimal. Qed.
Print Assumptions C53_ky_fan.

Theorem C53_zero_columns : forall svd m grads wo U s C,
  Forall (fun g => length g = m) grads -> (forall v, wo = Some v -> length v = length grads /\ Forall (fun a => 0 < a) v) ->
  (exists vs, svd_full m (as_cols (as_weights grads wo) grads) (fst (svd (as_cols (as_weights grads wo) grads))) (snd (svd (as_cols (as_weights grads wo) grads))) vs) ->
  as_fit svd m grads wo = (U, s, C) ->
  (forall k, (k < m)%nat -> vget s k = 0 -> nth k U [] = vzero m) /\ ((length grads < m)%nat -> nth (m - 1) U [] = vzero m /\ ~ orthonormal U).
Proof. exact as_zero_columns. Qed.
Print Assumptions C53_zero_columns.

Theorem C53_sign_refuted : exists svd grads U s C,
  (exists vs, svd_full 1 (as_cols (as_weights grads None) grads) (fst (svd (as_cols (as_weights grads None) grads))) (snd (svd (as_cols (as_weights grads None) grads))) vs) /\
  as_fit svd 1 grads None = (U, s, C) /\ vget s 0 = 1 /\ mget C 0 0 = 1 /\ U = [[0]].
Proof. exact as_sign_refuted. Qed.
Print Assumptions C53_sign_refuted.

Example C53_case : svd_full 2 (as_cols (as_weights [[2; 0]; [0; 1]] (Some [1; 1])) [[2; 0]; [0; 1]]) [[1; 0]; [0; 1]] [2; 1] [[1; 0]; [0; 1]] /\
  mean_slope [1; 0] [[2; 0]; [0; 1]] <> 0 /\ mean_slope [0; 1] [[2; 0]; [0; 1]] <> 0.
Proof. exact as_U_case. Qed.

Example C53_few_case : exists svd, (exists vs, svd_full 2 (as_cols (as_weights [[3; 4]] None) [[3; 4]]) (fst (svd (as_cols (as_weights [[3; 4]] None) [[3; 4]]))) (snd (svd (as_cols (as_weights [[3; 4]] None) [[3; 4]]))) vs) /\
  Forall (fun g => length g = 2%nat) [[3; 4]] /\ (length [[3; 4]] < 2)%nat.
Proof. exact as_few_case. Qed.

(** C54: outer product of gradients *)
Theorem C54_rank_one : forall svd m N a U s C, (1 <= N)%nat -> length a = m -> norm2 a <> 0 ->
  (exists vs, svd_full m (as_cols (as_weights (repeat a N) None) (repeat a N)) (fst (svd (as_cols (as_weights (repeat a N) None) (repeat a N)))) (snd (svd (as_cols (as_weights (repeat a N) None) (repeat a N)))) vs) ->
  as_fit svd m (repeat a N) None = (U, s, C) ->
  length U = m /\ (1 <= m)%nat /\ nth 0 U [] = vscale (/ norm2 a) a /\ vget s 0 = norm2 a /\ forall k, (1 <= k < m)%nat -> nth k U [] = vzero m /\ vget s k = 0.
Proof. exact as_rank_one. Qed.
Print Assumptions C54_rank_one.

Theorem C54_linear : forall pb lstsq svd qr m X fX b a c U s C, lstsq_ok (m + 1) lstsq -> svd_exact m svd -> length a = m -> norm2 a <> 0 -> affine_data a c X fX -> spanning m X ->
  opg_fit (fun Z => local_linear_grads pb lstsq m Z fX None (Some (BwVal b)) None) svd qr m false X = Some (U, s, C) ->
  nth 0 U [] = vscale (/ norm2 a) a /\ vget s 0 = norm2 a /\ forall k, (1 <= k < m)%nat -> nth k U [] = vzero m /\ vget s k = 0.
Proof. exact opg_linear. Qed.
Print Assumptions C54_linear.

Theorem C54_standardized : forall pb lstsq svd qr m X fX b a c U s C, lstsq_ok (m + 1) lstsq -> svd_exact m svd -> qr_exact m qr -> length a = m -> norm2 a <> 0 -> affine_data a c X fX -> spanning m X ->
  opg_fit (fun Z => local_linear_grads pb lstsq m Z fX None (Some (BwVal b)) None) svd qr m true X = Some (U, s, C) ->
  nth 0 U [] = vscale (/ norm2 (sqrt_std m X a)) (sqrt_std m X a) /\ vget s 0 = norm2 (vmul (opg_std m X) a).
Proof. exact opg_standardized. Qed.
Print Assumptions C54_standardized.

Theorem C54_equal_spread : forall pb lstsq svd qr m X fX b a c U s C t, lstsq_ok (m + 1) lstsq -> svd_exact m svd -> qr_exact m qr -> length a = m -> norm2 a <> 0 -> affine_data a c X fX -> spanning m X ->
  (forall k, (k < m)%nat -> vget (opg_std m X) k = t) ->
  opg_fit (fun Z => local_linear_grads pb lstsq m Z fX None (Some (BwVal b)) None) svd qr m true X = Some (U, s, C) ->
  nth 0 U [] = vscale (/ norm2 a) a.
Proof. exact opg_equal_spread. Qed.
Print Assumptions C54_equal_spread.

Theorem C54_standardize_refuted : exists m X fX a c, length a = m /\ norm2 a <> 0 /\ affine_data a c X fX /\ spanning m X /\
  forall pb lstsq svd qr b, lstsq_ok (m + 1) lstsq -> svd_exact m svd -> qr_exact m qr ->
    exists U s C, opg_fit (fun Z => local_linear_grads pb lstsq m Z fX None (Some (BwVal b)) None) svd qr m true X = Some (U, s, C) /\ forall t, nth 0 U [] <> vscale t a.
Proof. exact opg_standardize_refuted. Qed.
Print Assumptions C54_standardize_refuted.

Example C54_case : length [1; 1] = 2%nat /\ norm2 [1; 1] <> 0 /\ affine_data [1; 1] 0 opg_X [5; -3; 3; -5] /\ spanning 2 opg_X.
Proof. exact opg_case. Qed.

(** C55: local linear fits *)
Theorem C55_affine : forall pb lstsq m X fX perp bw Xt A a c, lstsq_ok (m + 1) lstsq -> length a = m -> affine_data a c X fX -> spanning m X ->
  local_linear pb lstsq m X fX perp bw Xt = Some A -> forall i, (i < length (points X Xt))%nat -> nth i A [] = c :: a.
Proof. exact ll_affine. Qed.
Print Assumptions C55_affine.

Theorem C55_shape : forall pb lstsq m X fX perp bw Xt A, local_linear pb lstsq m X fX perp bw Xt = Some A ->
  length A = length X /\ (length (points X Xt) <= length X)%nat /\ forall i, (length (points X Xt) <= i < length X)%nat -> nth i A [] = vzero (m + 1).
Proof. exact ll_shape. Qed.
Print Assumptions C55_shape.

Theorem C55_returns : forall pb lstsq m X fX b Xt, length fX = length X -> (length (points X Xt) <= length X)%nat ->
  exists A, local_linear pb lstsq m X fX None (Some (BwVal b)) Xt = Some A.
Proof. exact ll_returns. Qed.
Print Assumptions C55_returns.

Theorem C55_gradients : forall pb lstsq m X fX b a c, lstsq_ok (m + 1) lstsq -> length a = m -> affine_data a c X fX -> spanning m X ->
  local_linear_grads pb lstsq m X fX None (Some (BwVal b)) None = Some (repeat a (length X)).
Proof. exact ll_grads_affine. Qed.
Print Assumptions C55_gradients.

Theorem C55_weighted : forall pb lstsq m X fX perp bw Xt A, lstsq_ok (m + 1) lstsq -> Forall (fun x => length x = m) X ->
  local_linear pb lstsq m X fX perp bw Xt = Some A -> forall t, (t < length (points X Xt))%nat -> let xt := nth t (points X Xt) [] in
  exists beta a0 a, factor pb m X perp bw xt beta /\ nth t A [] = a0 :: a /\ length a = m /\ forall c0 c, length c = m -> wls X fX beta xt a0 a <= wls X fX beta xt c0 c.
Proof. exact ll_weighted. Qed.
Print Assumptions C55_weighted.

Theorem C55_row_length : forall pb lstsq m X fX perp bw Xt A, (forall B b a, lstsq B b = Some a -> length a = (m + 1)%nat) ->
  local_linear pb lstsq m X fX perp bw Xt = Some A -> Forall (fun r => length r = (m + 1)%nat) A.
Proof. exact ll_row_length. Qed.
Print Assumptions C55_row_length.

Theorem C55_solvable : forall n A b, Forall (fun r => length r = n) A -> length b = length A -> exists a, lstsq_post n A b a.
Proof. exact lstsq_post_exists. Qed.
Print Assumptions C55_solvable.

Theorem C55_bandwidth_refuted : exists X fX b, forall pb lstsq, lstsq_ok 2 lstsq -> exists A a0 a, local_linear pb lstsq 1 X fX None (Some (BwVal b)) None = Some A /\ nth 0 A [] = a0 :: a /\
  exists c0 c, length c = 1%nat /\ wls X fX b (nth 0 X []) c0 c < wls X fX b (nth 0 X []) a0 a.
Proof. exact ll_bandwidth_refuted. Qed.
Print Assumptions C55_bandwidth_refuted.

Theorem C55_rows_refuted : exists m X fX a c Xt b, affine_data a c X fX /\ spanning m X /\ length a = m /\
  forall pb lstsq, lstsq_ok (m + 1) lstsq -> exists G, local_linear_grads pb lstsq m X fX None (Some (BwVal b)) (Some Xt) = Some G /\
    length G <> length Xt /\ nth 0 G [] = a /\ In (vzero m) G /\ a <> vzero m.
Proof. exact ll_rows_refuted. Qed.
Print Assumptions C55_rows_refuted.

Theorem C55_many_refuted : exists m X fX a c Xt, affine_data a c X fX /\ spanning m X /\ length a = m /\
  forall pb lstsq b, local_linear pb lstsq m X fX None (Some (BwVal b)) (Some Xt) = None.
Proof. exact ll_many_refuted. Qed.
Print Assumptions C55_many_refuted.

Theorem C55_default_refuted : exists m X fX a c, affine_data a c X fX /\ spanning m X /\ length a = m /\ length X = (m + 1)%nat /\
  forall pb lstsq Xt, local_linear pb lstsq m X fX None None Xt = None.
Proof. exact ll_default_refuted. Qed.
Print Assumptions C55_default_refuted.

Example C55_case : length [2] = 1%nat /\ affine_data [2] 1 [[0]; [1]; [2]] [1; 3; 5] /\ spanning 1 [[0]; [1]; [2]].
Proof. exact ll_case. Qed.

(** C57: perplexity bandwidth *)
Theorem C57_entropy : forall beta d, d <> [] ->
  (forall i, (i < length d)%nat -> 0 < qw beta d i) /\ rsum (length d) (qw beta d) = 1 /\ log_entropy beta d = shannon (length d) (qw beta d).
Proof. exact entropy_shannon. Qed.
Print Assumptions C57_entropy.

Theorem C57_entropy_bounds : forall beta d, d <> [] -> 0 <= log_entropy beta d <= ln (INR (length d)) /\ log_entropy 0 d = ln (INR (length d)).
Proof. exact entropy_bounds. Qed.
Print Assumptions C57_entropy_bounds.

Theorem C57_entropy_decreasing : forall b1 b2 d, d <> [] -> 0 <= b1 < b2 -> log_entropy b2 d <= log_entropy b1 d /\
  ((exists i j, (i < length d)%nat /\ (j < length d)%nat /\ vget d i <> vget d j) -> log_entropy b2 d < log_entropy b1 d).
Proof. exact entropy_decreasing. Qed.
Print Assumptions C57_entropy_decreasing.

Theorem C57_entropy_derivative : forall d beta, d <> [] -> derivable_pt_lim (fun b => log_entropy b d) beta (- beta * dvar beta d).
Proof. exact entropy_derivative. Qed.
Print Assumptions C57_entropy_derivative.

Theorem C57_unique : forall d perp b1 b2, (exists i j, (i < length d)%nat /\ (j < length d)%nat /\ vget d i <> vget d j) ->
  0 <= b1 -> 0 <= b2 -> log_entropy b1 d = ln perp -> log_entropy b2 d = ln perp -> b1 = b2.
Proof. exact bandwidth_unique. Qed.
Print Assumptions C57_unique.

Theorem C57_bracket_partial : forall d perp p1 k, Forall (fun a => 0 < a) d -> (k < length d)%nat ->
  (forall i, (i < length d)%nat -> i <> k -> vget d k < vget d i) -> 1 <= vmax d ^ 2 + vget d k ^ 2 ->
  2 <= perp < INR (length d) -> p1_post (INR (length d)) perp p1 ->
  exists b1 b2, pb_bracket p1 d perp = Some (b1, b2) /\ 0 < b1 < b2 /\ ln perp <= log_entropy b1 d /\ log_entropy b2 d < ln perp.
Proof. exact bandwidth_bracket_partial. Qed.
Print Assumptions C57_bracket_partial.

Theorem C57_correct_partial : forall root d perp p1 k, root_ok root -> Forall (fun a => 0 < a) d -> (k < length d)%nat ->
  (forall i, (i < length d)%nat -> i <> k -> vget d k < vget d i) -> 1 <= vmax d ^ 2 + vget d k ^ 2 ->
  2 <= perp < INR (length d) -> p1_post (INR (length d)) perp p1 ->
  exists b, perplexity_bandwidth root p1 d perp = Some b /\ 0 < b /\ exp (shannon (length d) (qw b d)) = perp /\
    forall b', 0 <= b' -> exp (shannon (length d) (qw b' d)) = perp -> b' = b.
Proof. exact bandwidth_correct_partial. Qed.
Print Assumptions C57_correct_partial.

Theorem C57_grid_refuted : exists X x d, sqdist X x = d /\ 2 <= 2 < INR (length d) /\
  (forall root p1, perplexity_bandwidth root p1 d 2 = None) /\ exists b, 0 <= b /\ log_entropy b d = ln 2.
Proof. exact bandwidth_grid_refuted. Qed.
Print Assumptions C57_grid_refuted.

Theorem C57_isolated_refuted : exists X x d, sqdist X x = d /\ In x X /\ 2 <= 2 < INR (length d) /\
  (exists p1, p1_post (INR (length d)) 2 p1) /\ (exists b, 0 <= b /\ log_entropy b d = ln 2) /\
  forall root p1, root_ok root -> p1_post (INR (length d)) 2 p1 -> perplexity_bandwidth root p1 d 2 = None.
Proof. exact bandwidth_isolated_refuted. Qed.
Print Assumptions C57_isolated_refuted.

Theorem C57_scale_refuted : exists d, Forall (fun a => 0 < a) d /\ (forall i, (i < length d)%nat -> i <> 0%nat -> vget d 0 < vget d i) /\ 2 <= 2 < INR (length d) /\
  (exists p1, p1_post (INR (length d)) 2 p1) /\ (exists b, 0 <= b /\ log_entropy b d = ln 2) /\
  forall root p1, root_ok root -> p1_post (INR (length d)) 2 p1 -> perplexity_bandwidth root p1 d 2 = None.
Proof. exact bandwidth_scale_refuted. Qed.
Print Assumptions C57_scale_refuted.

Example C57_case : Forall (fun a => 0 < a) [1; 2; 3] /\ (forall i, (i < 3)%nat -> i <> 0%nat -> vget [1; 2; 3] 0 < vget [1; 2; 3] i) /\
  1 <= vmax [1; 2; 3] ^ 2 + vget [1; 2; 3] 0 ^ 2 /\ 2 <= 2 < INR 3 /\ exists p1, p1_post (INR 3) 2 p1.
Proof. exact bandwidth_case. Qed.

Local Open Scope nat_scope.

(** C62: PGF tables *)
Theorem C62_round_trip : forall F (fmt : F -> list ascii) parse p, float_text fmt parse -> table p -> Forall clean (pnames p) -> exists s, pgf_write fmt p = Some s /\ pgf_read parse s = Some p.
Proof. exact pgf_round_trip. Qed.
Print Assumptions C62_round_trip.

Theorem C62_contents : forall F l (q : pgf F), adds empty l = Some q -> pnames q = map fst l /\ pcols q = map snd l.
Proof. exact pgf_adds_keep. Qed.
Print Assumptions C62_contents.

Theorem C62_lengths_partial : forall F l (q : pgf F), adds empty l = Some q -> forall i, 2 <= i -> i < length l -> length (nth i (pcols q) []) = length (nth 0 (pcols q) []).
Proof. exact pgf_lengths_partial. Qed.
Print Assumptions C62_lengths_partial.

Theorem C62_table : forall F (l : list (list ascii * list F)) n0 c0 l', l = (n0, c0) :: l' -> (forall nc, In nc l' -> length (snd nc) = length c0) -> exists q, adds empty l = Some q /\ table q.
Proof. exact pgf_adds_table. Qed.
Print Assumptions C62_table.

Theorem C62_lookup : forall F l (q : pgf F) key c, adds empty l = Some q -> (pgf_get q key = Some c <-> exists l1 l2, l = l1 ++ (key, c) :: l2 /\ ~ In key (map fst l1)).
Proof. exact pgf_lookup. Qed.
Print Assumptions C62_lookup.

Theorem C62_length_refuted : exists (l : list (list ascii * list bool)) q, adds empty l = Some q /\ (exists i j, i < length l /\ j < length l /\ length (nth i (pcols q) []) <> length (nth j (pcols q) [])) /\ pgf_write bfmt q = None.
Proof. exact pgf_add_refuted. Qed.
Print Assumptions C62_length_refuted.

Theorem C62_surplus_refuted : exists (l : list (list ascii * list bool)) q s q', float_text bfmt bparse /\ adds empty l = Some q /\ Forall clean (pnames q) /\ pgf_write bfmt q = Some s /\ pgf_read bparse s = Some q' /\ pcols q' <> pcols q.
Proof. exact pgf_surplus_refuted. Qed.
Print Assumptions C62_surplus_refuted.

Theorem C62_name_refuted : exists (l : list (list ascii * list bool)) q s, adds empty l = Some q /\ table q /\ pgf_write bfmt q = Some s /\ pgf_read bparse s <> Some q.
Proof. exact pgf_name_refuted. Qed.
Print Assumptions C62_name_refuted.

Example C62_case : float_text bfmt bparse /\ exists q : pgf bool, adds empty ex_table = Some q /\ table q /\ Forall clean (pnames q).
Proof. exact pgf_case. Qed.

Local Open Scope R_scope.

(** C64: measure of nonlinearity *)
Theorem C64_measure : forall solve m X fX v a, Forall (fun x => length x = m) X -> length fX = length X -> distinct X -> (exists i j, (i < length X)%nat /\ (j < length X)%nat /\ vget fX i <> vget fX j) ->
  nl_solved m X fX (fst (solve X fX)) (snd (solve X fX)) -> measure_nonlinearity solve X fX = Some (v, a) ->
  0 <= v <= 1 /\ exists L0, 0 < L0 /\ lip_bound X fX (vzero m) L0 /\ (forall L', lip_bound X fX (vzero m) L' -> L0 <= L') /\
    lip_bound X fX a (v * L0) /\ forall a' L', length a' = m -> lip_bound X fX a' L' -> v * L0 <= L'.
Proof. exact nl_measure. Qed.
Print Assumptions C64_measure.

Theorem C64_affine : forall solve m X fX v a, Forall (fun x => length x = m) X -> length fX = length X -> distinct X -> (exists i j, (i < length X)%nat /\ (j < length X)%nat /\ vget fX i <> vget fX j) ->
  nl_solved m X fX (fst (solve X fX)) (snd (solve X fX)) -> measure_nonlinearity solve X fX = Some (v, a) ->
  (v = 0 <-> exists g c, length g = m /\ affine_data g c X fX) /\
  (forall g c, length g = m -> affine_data g c X fX -> spanning m X -> a = vscale (-1) g).
Proof. exact nl_affine. Qed.
Print Assumptions C64_affine.

Theorem C64_sign_refuted : exists m X fX g c, length g = m /\ affine_data g c X fX /\ spanning m X /\ distinct X /\ (exists i j, (i < length X)%nat /\ (j < length X)%nat /\ vget fX i <> vget fX j) /\
  (exists a L, nl_solved m X fX a L) /\
  forall solve, nl_solved m X fX (fst (solve X fX)) (snd (solve X fX)) -> exists v a, measure_nonlinearity solve X fX = Some (v, a) /\ a = vscale (-1) g /\ a <> g.
Proof. exact nl_sign_refuted. Qed.
Print Assumptions C64_sign_refuted.

Example C64_case : exists solve, nl_solved 1 [[0]; [1]; [2]] [1; 3; 5] (fst (solve [[0]; [1]; [2]] [1; 3; 5])) (snd (solve [[0]; [1]; [2]] [1; 3; 5])) /\ distinct [[0]; [1]; [2]] /\
  exists v a, measure_nonlinearity solve [[0]; [1]; [2]] [1; 3; 5] = Some (v, a).
Proof. exact nl_case. Qed.

(** C65: shadow envelope *)
Theorem C65_rows : forall a b n y, a < b -> (2 <= n)%nat -> a <= y <= b ->
  let row := se_row a ((b - a) / INR (n - 1)) n y in
  length row = n /\ Forall (fun c => 0 <= c) row /\ vsum row = 1 /\ dot row (linspace a b n) = y.
Proof. exact rows_partition. Qed.
Print Assumptions C65_rows.

Theorem C65_bins : forall y n c, (2 <= n)%nat -> vmin y < vmax y -> In c y ->
  let b := se_bin (vget (se_grid y n) 0) (se_h y n) c in (0 <= b <= Z.of_nat n - 1)%Z /\ (b = (Z.of_nat n - 1)%Z <-> c = vmax y).
Proof. exact bins_range. Qed.
Print Assumptions C65_bins.

Theorem C65_search : forall y, let n := se_ngrid y None in (3 <= n <= 25)%nat /\
  ((n = 3)%nat \/ ((forall k, (S k < n)%nat -> (5 <= se_count y n k)%nat) /\ (1 <= se_count y n (n - 1))%nat)).
Proof. exact search_bins. Qed.
Print Assumptions C65_search.

Theorem C65_encloses : forall solve_ub solve_lb X fX u ngrid y lb ub,
  shadow_envelope solve_ub solve_lb X fX u ngrid = Some (y, lb, ub) ->
  let n := se_ngrid y ngrid in (2 <= n)%nat ->
  se_ub_ok n (se_A y n) fX ub -> se_lb_ok n (se_A y n) fX lb ->
  length lb = n /\ length ub = n /\ vmin y < vmax y /\
  forall i k, (i < length X)%nat -> (S k < n)%nat -> let t := dot (nth i X []) u in
    vget (se_grid y n) k <= t <= vget (se_grid y n) (S k) ->
    on_piece (se_grid y n) lb k t <= vget fX i <= on_piece (se_grid y n) ub k t.
Proof. exact envelope_encloses. Qed.
Print Assumptions C65_encloses.

Theorem C65_pieces : forall (X : mat) (u : vec) n i, let y := map (fun x => dot x u) X in (2 <= n)%nat -> vmin y < vmax y -> (i < length X)%nat ->
  exists k, (S k < n)%nat /\ vget (se_grid y n) k <= dot (nth i X []) u <= vget (se_grid y n) (S k).
Proof. exact envelope_pieces. Qed.
Print Assumptions C65_pieces.

Theorem C65_tight : forall solve_ub solve_lb X fX u ngrid y lb ub,
  shadow_envelope solve_ub solve_lb X fX u ngrid = Some (y, lb, ub) ->
  let n := se_ngrid y ngrid in (2 <= n)%nat ->
  se_ub_ok n (se_A y n) fX ub -> se_lb_ok n (se_A y n) fX lb -> forall w, length w = n ->
  ((forall i k, (i < length X)%nat -> (S k < n)%nat -> vget (se_grid y n) k <= dot (nth i X []) u <= vget (se_grid y n) (S k) -> vget fX i <= on_piece (se_grid y n) w k (dot (nth i X []) u)) -> vsum ub <= vsum w) /\
  ((forall i k, (i < length X)%nat -> (S k < n)%nat -> vget (se_grid y n) k <= dot (nth i X []) u <= vget (se_grid y n) (S k) -> on_piece (se_grid y n) w k (dot (nth i X []) u) <= vget fX i) -> vsum w <= vsum lb).
Proof. exact envelope_tight. Qed.
Print Assumptions C65_tight.

Theorem C65_default_refuted : exists X fX u, let y := map (fun x => dot x u) X in let n := se_ngrid y None in
  vmin y < vmax y /\ (n = 3)%nat /\ ~ exists v, se_ub_ok n (se_A y n) fX v.
Proof. exact envelope_default_refuted. Qed.
Print Assumptions C65_default_refuted.

Example C65_rows_case : vsum (se_row 0 ((2 - 0) / INR (3 - 1)) 3 (1 / 2)) = 1 /\ dot (se_row 0 ((2 - 0) / INR (3 - 1)) 3 (1 / 2)) (linspace 0 2 3) = 1 / 2.
Proof. exact rows_case. Qed.

Example C65_case : exists y lb ub, let su := fun _ _ => [0; 1; 0] in
  shadow_envelope su su [[0]; [1]; [2]] [0; 1; 0] [1] (Some 3%nat) = Some (y, lb, ub) /\
  se_ub_ok 3 (se_A y 3) [0; 1; 0] ub /\ se_lb_ok 3 (se_A y 3) [0; 1; 0] lb /\ (2 <= se_ngrid y (Some 3%nat))%nat.
Proof. exact envelope_case. Qed.

(** C88: checking samples and gradients *)
Theorem C88_consistent : forall X fX grads X' f' g', check_sample_inputs X fX grads = Some (X', f', g') ->
  length (arows X') = length f' /\ acols X' = acols g' /\ (forall X0 f0, X = Some X0 -> fX = Some f0 -> X' = X0 /\ f' = f0) /\ (forall g0, grads = Some g0 -> g' = g0) /\ (grads = None -> arows g' = []).
Proof. exact csi_consistent. Qed.
Print Assumptions C88_consistent.

Theorem C88_rejects : forall X f grads, (length (arows X) <> length f \/ exists g, grads = Some g /\ acols X <> acols g) -> check_sample_inputs (Some X) (Some f) grads = None.
Proof. exact csi_rejects. Qed.
Print Assumptions C88_rejects.

Theorem C88_drop_refuted : exists X g X' f' g', check_sample_inputs (Some X) None (Some g) = Some (X', f', g') /\ arows X <> [] /\ arows X' = [] /\ acols X <> acols g.
Proof. exact csi_drop_refuted. Qed.
Print Assumptions C88_drop_refuted.

Example C88_case : let X := mkArr 2 [[0; 1]; [1; 0]] in let g := mkArr 2 [[1; 1]] in
  check_sample_inputs (Some X) (Some [5; 6]) (Some g) = Some (X, [5; 6], g) /\ check_sample_inputs (Some X) (Some [5; 6; 7]) (Some g) = None /\ check_sample_inputs (Some X) (Some [5; 6]) (Some (mkArr 1 [[1]])) = None.
Proof. exact csi_case. Qed.

(** C89: initial subspace *)
Theorem C89_span : forall perm llg svd1 X fX g n_grads us, svd_thin_ok svd1 (acols g) -> Forall (fun v => length v = acols g) (arows g) -> arows g <> [] ->
  (forall X f Xt A, llg X f Xt = Some A -> Forall (fun v => length v = acols g) A) ->
  initialize_subspace perm llg svd1 X fX (Some g) n_grads = Some us ->
  Forall (fun u => length u = acols g) us /\ orthonormal us /\ (length us <= acols g)%nat /\ forall v, In v (arows g) -> in_span (acols g) us v.
Proof. exact init_span. Qed.
Print Assumptions C89_span.

Theorem C89_affine : forall perm pb lstsq svd1 m X fX a c n_grads us, (forall n, Permutation (perm n) (seq 0 n)) -> lstsq_ok (m + 1) lstsq -> svd_thin_ok svd1 m ->
  length a = m -> norm2 a <> 0 -> affine_data a c X fX -> spanning m X -> (1 <= n_grads)%nat -> (m + 1 <= length X)%nat ->
  initialize_subspace perm (fun X f Xt => local_linear_grads pb lstsq m X f None None (Some Xt)) svd1 (Some (mkArr m X)) (Some fX) None n_grads = Some us ->
  exists e, (e = 1 \/ e = -1) /\ nth 0 us [] = vscale (e / norm2 a) a.
Proof. exact init_affine. Qed.
Print Assumptions C89_affine.

Theorem C89_minimal_refuted : exists m X fX a c, length a = m /\ affine_data a c X fX /\ spanning m X /\ length X = (m + 1)%nat /\
  forall perm pb lstsq svd1 n_grads, (1 <= n_grads)%nat ->
    initialize_subspace perm (fun X f Xt => local_linear_grads pb lstsq m X f None None (Some Xt)) svd1 (Some (mkArr m X)) (Some fX) None n_grads = None.
Proof. exact init_minimal_refuted. Qed.
Print Assumptions C89_minimal_refuted.

Example C89_case : affine_data [2] 1 [[0]; [1]; [2]] [1; 3; 5] /\ spanning 1 [[0]; [1]; [2]] /\ svd_thin 1 [[2]; [2]; [0]] [[1]] /\
  initialize_subspace (fun n => seq 0 n) (fun _ _ _ => Some [[2]; [2]; [0]]) (fun _ => [[1]]) (Some (mkArr 1 [[0]; [1]; [2]])) (Some [1; 3; 5]) None 2 = Some [[1]].
Proof. exact init_case. Qed.
