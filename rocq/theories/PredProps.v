(** Generated by tools/mkprops.py from tools/props/PredProps.spec: the property theorems. *)
Require Import Reals List Bool Arith ZArith.
From Verif Require Import RVec Num Sums MatLib SpecProofs DomModel DomSpec DomProofs DomOpsProofs DomMoreModel GeoModel HullBasis PredModel PredProofs PredDirs PredCases.
Import ListNotations.
Local Open Scope R_scope.

Local Open Scope R_scope.

(** C127: the predicates of a general domain *)
Theorem C127_is_empty : forall M m corner, (0 < m)%nat -> corner_ok M m corner -> (is_empty m corner = true <-> forall x, ~ M x).
Proof. exact is_empty_exact. Qed.
Print Assumptions C127_is_empty.

Theorem C127_is_unbounded : forall M m corner U, (2 <= m)%nat -> in_dim M m -> corner_ok M m corner -> onb m U ->
  exists b, is_unbounded m corner U = Some b /\ (b = true <-> ~ bounded M).
Proof. exact is_unbounded_exact. Qed.
Print Assumptions C127_is_unbounded.

Theorem C127_is_unbounded_line_raises : forall corner U, is_unbounded 1 corner U = None.
Proof. exact is_unbounded_1d. Qed.
Print Assumptions C127_is_unbounded_line_raises.

Theorem C127_is_point_single : forall M m corner U c, (0 < m)%nat -> length c = m -> (forall x, M x <-> x = c) -> corner_ok M m corner -> onb m U -> is_point m corner U = true.
Proof. exact is_point_single. Qed.
Print Assumptions C127_is_point_single.

Theorem C127_is_point_small : forall M m corner U, (0 < m)%nat -> in_dim M m -> corner_ok M m corner -> onb m U -> is_point m corner U = true ->
  (exists x, M x) /\ forall B, (forall y, M y -> norm2 y <= B) -> forall y z, M y -> M z -> norm2 (vsub y z) <= INR m * (atol + rtol * B).
Proof. exact is_point_small. Qed.
Print Assumptions C127_is_point_small.

Theorem C127_is_point_not_empty : forall M m corner U, (0 < m)%nat -> in_dim M m -> corner_ok M m corner -> onb m U -> (forall x, ~ M x) \/ ~ bounded M -> is_point m corner U = false.
Proof. exact is_point_not_empty. Qed.
Print Assumptions C127_is_point_not_empty.

Theorem C127_is_point_segment : forall a b U, a <= b -> (is_point 1 (seg_corner a b) U = true <-> b - a <= atol + rtol * Rabs a).
Proof. exact seg_is_point. Qed.
Print Assumptions C127_is_point_segment.

Theorem C127_is_point_refuted : exists M m corner U x y, (0 < m)%nat /\ in_dim M m /\ corner_ok M m corner /\ onb m U /\ is_point m corner U = true /\ M x /\ M y /\ x <> y.
Proof. exact is_point_refuted. Qed.
Print Assumptions C127_is_point_refuted.

Theorem C127_is_point_far_refuted : forall w U, 0 < w -> exists a, is_point 1 (seg_corner a (a + w)) U = true /\ seg a (a + w) [a] /\ seg a (a + w) [a + w] /\ corner_ok (seg a (a + w)) 1 (seg_corner a (a + w)).
Proof. exact is_point_far. Qed.
Print Assumptions C127_is_point_far_refuted.

Example C127_square_case : corner_ok (boxset [0; 0] [1; 1]) 2 (box_corner [0; 0] [1; 1]) /\ in_dim (boxset [0; 0] [1; 1]) 2 /\ onb 2 rot /\
  is_empty 2 (box_corner [0; 0] [1; 1]) = false /\ is_point 2 (box_corner [0; 0] [1; 1]) rot = false /\ is_unbounded 2 (box_corner [0; 0] [1; 1]) rot = Some false.
Proof. exact unit_square_case. Qed.

Example C127_half_plane_case : corner_ok half 2 half_corner /\ in_dim half 2 /\ is_empty 2 half_corner = false /\ is_point 2 half_corner rot = false /\ is_unbounded 2 half_corner rot = Some true.
Proof. exact half_plane_case. Qed.

Example C127_empty_case : corner_ok (fun _ => False) 2 (fun _ => EmptyExc) /\ is_empty 2 (fun _ => EmptyExc) = true /\ is_point 2 (fun _ => EmptyExc) rot = false /\ is_unbounded 2 (fun _ => EmptyExc) rot = Some false.
Proof. exact empty_case. Qed.

(** C128: random directions, boundary samples, starting point *)
Theorem C128_random_direction : forall d tol stol x Q fuel k g r, dom_wf d -> proper d -> dcls d <> Point -> 0 < tol -> 0 < stol -> member d x ->
  off_faces d x -> orth_sp (dim d) (dAeq d) Q -> (forall j, length (g j) = dim d) ->
  random_direction fuel k g Q true (extent d tol stol x) = Some r ->
  exists p j, r = Some p /\ (k <= j < k + fuel)%nat /\ p = proj_out Q (g j) /\ eq_kept d p /\ can_move d x p /\
    forall i, (k <= i < j)%nat -> forall s, 0 < s -> ~ member d (along x (proj_out Q (g i)) s).
Proof. exact random_direction_sound. Qed.
Print Assumptions C128_random_direction.

Theorem C128_random_direction_ends : forall d tol stol x Q g j k, dom_wf d -> proper d -> dcls d <> Point -> 0 < tol -> 0 < stol -> member d x ->
  off_faces d x -> orth_sp (dim d) (dAeq d) Q -> (forall j, length (g j) = dim d) ->
  can_move d x (proj_out Q (g (k + j)%nat)) -> random_direction (S j) k g Q true (extent d tol stol x) <> None.
Proof. exact random_direction_ends. Qed.
Print Assumptions C128_random_direction_ends.

Theorem C128_random_direction_free : forall m C Q fuel k g ext, orth_sp m C Q -> length (g k) = m ->
  random_direction (S fuel) k g Q false ext = Some (Some (proj_out Q (g k))) /\ forall c, In c C -> dot c (proj_out Q (g k)) = 0.
Proof. exact random_direction_free. Qed.
Print Assumptions C128_random_direction_free.

Example C128_random_direction_case : dom_wf sq /\ proper sq /\ member sq [0; 0] /\ off_faces sq [0; 0] /\ orth_sp 2 (dAeq sq) [] /\
  random_direction 2 0 sq_draws [] true (extent sq (1/1000) (1/1000) [0; 0]) = None /\ random_direction 3 0 sq_draws [] true (extent sq (1/1000) (1/1000) [0; 0]) = Some (Some [1; 2]).
Proof. exact random_direction_case. Qed.

Theorem C128_random_direction_refuted : exists d x y p, dom_wf d /\ dcls d = LinIneq /\ member d x /\ member d y /\ x <> y /\ can_move d x p /\
  forall (g : nat -> vec), (forall k, length (g k) = 2%nat /\ vget (g k) 1 <> 0) -> forall fuel k, random_direction fuel k g [] true (extent d (1/1000) (1/1000) x) = None.
Proof. exact random_direction_refuted. Qed.
Print Assumptions C128_random_direction_refuted.

Theorem C128_random_direction_hangs : forall d tol stol x Q g i, dom_wf d -> dcls d <> Point -> inside1 d x tol = true -> length x = dim d ->
  Forall (fun q => length q = dim d) Q -> (forall j, length (g j) = dim d) ->
  nth_error (lb d) i = Some (Fin (vget x i)) -> nth_error (ub d) i = Some (Fin (vget x i)) -> (forall j, vget (proj_out Q (g j)) i <> 0) ->
  forall fuel k, random_direction fuel k g Q true (extent d tol stol x) = None.
Proof. exact random_direction_hangs. Qed.
Print Assumptions C128_random_direction_hangs.

Theorem C128_random_direction_point_refuted : forall d tol stol x Q g, dcls d = Point -> inside1 d x tol = true -> forall fuel k, random_direction fuel k g Q true (extent d tol stol x) = None.
Proof. exact random_direction_point. Qed.
Print Assumptions C128_random_direction_point_refuted.

Theorem C128_sample_boundary : forall M m corner, in_dim M m -> corner_ok M m corner -> forall dirs X,
  Forall (fun d => length d = m /\ exists i, (i < m)%nat /\ vget d i <> 0) dirs -> sample_boundary corner dirs = Some X ->
  length X = length dirs /\ forall k, (k < length dirs)%nat ->
    M (nth k X []) /\ (forall y, M y -> dot (nth k dirs []) y <= dot (nth k dirs []) (nth k X [])) /\
    forall e, 0 < e -> ~ M (along (nth k X []) (nth k dirs []) e).
Proof. exact sample_boundary_spec. Qed.
Print Assumptions C128_sample_boundary.

Theorem C128_sample_boundary_vertices : forall l u corner dirs X, length l = length u ->
  corner_ok (fun x => length x = length l /\ forall i, (i < length l)%nat -> vget l i <= vget x i <= vget u i) (length l) corner ->
  (0 < length l)%nat -> Forall (fun d => length d = length l /\ forall i, (i < length l)%nat -> vget d i <> 0) dirs -> sample_boundary corner dirs = Some X ->
  forall x i, In x X -> (i < length l)%nat -> vget x i = vget l i \/ vget x i = vget u i.
Proof. exact sample_boundary_vertices. Qed.
Print Assumptions C128_sample_boundary_vertices.

Example C128_sample_boundary_case : sample_boundary (box_corner [0; 0] [1; 1]) [[2; -1]; [1; 3]] = Some [[1; 0]; [1; 1]] /\ Forall (fun d => length d = 2%nat /\ forall i, (i < 2)%nat -> vget d i <> 0) [[2; -1]; [1; 3]].
Proof. exact boundary_case. Qed.

Theorem C128_corner_center : forall M m corner U closest c, (0 < m)%nat -> in_dim M m -> convex M m -> corner_ok M m corner -> onb m U ->
  (forall x, M x -> closest x = Some x) -> corner_center m corner U closest = Some c ->
  M c /\ exists k X, (0 < k <= m)%nat /\ length X = (2 * k)%nat /\ Forall M X /\ c = vmean m X /\
    forall j, (j < k)%nat -> let u := nth j (if Nat.ltb 1 m then U else [[1]]) [] in
      exists lo hi, (exists y, M y /\ dot u y = lo) /\ (exists y, M y /\ dot u y = hi) /\ (forall y, M y -> lo <= dot u y <= hi) /\
        lo + (hi - lo) / INR (2 * k) <= dot u c <= hi - (hi - lo) / INR (2 * k).
Proof. exact corner_center_spec. Qed.
Print Assumptions C128_corner_center.

Example C128_corner_center_case : corner_center 2 (box_corner [0; 0] [1; 1]) rot (fun x => Some x) = Some [1/2; 1/2].
Proof. exact corner_center_case. Qed.

Theorem C128_corner_center_stop : forall corner U Y, cc_loop corner 0 U [] = Some Y -> exists k, (k <= length U)%nat /\ length Y = (2 * k)%nat /\ (k = length U \/ (4 <= k)%nat /\ exists x y, In x Y /\ In y Y /\ atol < edist x y) /\
  forall k', (4 <= k' < k)%nat -> forall x y, In x (firstn (2 * k') Y) -> In y (firstn (2 * k') Y) -> edist x y <= atol.
Proof. exact cc_stop. Qed.
Print Assumptions C128_corner_center_stop.

Example C128_corner_center_stop_case : exists Y, cc_loop (box_corner [0; 0] [1; 1]) 0 (rot ++ rot ++ rot) [] = Some Y /\ length Y = 8%nat.
Proof. exact cc_stop_case. Qed.
