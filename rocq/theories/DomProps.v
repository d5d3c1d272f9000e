(** Properties C01-C07, C13: statements, each closed by a lemma, with a concrete case. *)
Require Import Reals Lra Lia List Bool.
From Verif Require Import RVec Num DomModel DomSpec DomProofs NormProofs DomOpsProofs DomExamples DomTight.
Import ListNotations.
Local Open Scope R_scope.

(* ------------------------------ C01 ------------------------------ *)
Theorem C01_membership_exact : forall d x tol, dom_wf d -> dcls d <> Point ->
  (inside1 d x tol = true <-> relaxed d tol x).
Proof. exact inside1_spec. Qed.
Print Assumptions C01_membership_exact.

Theorem C01_membership_rows : forall d X tol k, dom_wf d -> dcls d <> Point ->
  Forall (fun x => length x = k) X ->
  exists l, isinside d (Arr2 k X) tol = BArr l /\ length l = length X /\
    forall i x, nth_error X i = Some x ->
      exists v, nth_error l i = Some v /\ (v = true <-> relaxed d tol x).
Proof. exact isinside_arr2. Qed.
Print Assumptions C01_membership_rows.

Theorem C01_tolerance_monotone : forall d t1 t2 x, dom_wf d -> dcls d <> Point -> t1 <= t2 ->
  inside1 d x t1 = true -> inside1 d x t2 = true.
Proof. exact inside1_mono. Qed.
Print Assumptions C01_tolerance_monotone.

Theorem C01_exact_set : forall d x, dom_wf d -> dcls d <> Point ->
  (member d x <-> forall tol, 0 < tol -> inside1 d x tol = true).
Proof. exact member_inside1. Qed.
Print Assumptions C01_exact_set.

Theorem C01_wrong_dimension : forall d x tol, length x <> dim d -> isinside d (Arr1 x) tol = Scalar false.
Proof. exact isinside_wrong_dim. Qed.
Print Assumptions C01_wrong_dimension.

Example C01_case : dom_wf ex_dom /\ dcls ex_dom <> Point /\
  inside1 ex_dom [1/2; 1/2] (1/100) = true /\ inside1 ex_dom [3/2; 3/2] (1/100) = false.
Proof. exact ex_dom_case. Qed.

(** a PointDomain compares exactly: its tolerance argument has no effect *)
Theorem C01_point_ignores_tolerance : forall d xp x tol, dcls d = Point -> dim d = length xp ->
  lb d = map Fin xp -> (inside1 d x tol = true <-> x = xp).
Proof. exact point_inside. Qed.
Print Assumptions C01_point_ignores_tolerance.

Theorem C01_point_refuted : exists d x tol, dom_wf d /\ 0 < tol /\ relaxed d tol x /\ inside1 d x tol = false.
Proof. exact point_tol_refuted. Qed.
Print Assumptions C01_point_refuted.

(* ------------------------------ C02 ------------------------------ *)
Theorem C02_unnormalize_normalize : forall nlb nub x, length nlb = length nub -> length x = length nlb ->
  unnormalize nlb nub (normalize nlb nub x) = x.
Proof. exact unnormalize_normalize. Qed.
Print Assumptions C02_unnormalize_normalize.

Theorem C02_normalize_unnormalize : forall nlb nub z, length nlb = length nub -> length z = length nlb ->
  normalize nlb nub (unnormalize nlb nub z) = z.
Proof. exact normalize_unnormalize. Qed.
Print Assumptions C02_normalize_unnormalize.

Example C02_case : normalize [Fin 0; NInf; Fin 3] [Fin 4; PInf; Fin 3] [1; 7; 5] = [-1/2; 7; 2].
Proof. exact normalize_case. Qed.

(* ------------------------------ C03 ------------------------------ *)
Theorem C03_unit_cube : forall l u x i, length l = length u -> length x = length l -> (i < length l)%nat ->
  vget l i < vget u i ->
  (vget l i <= vget x i <= vget u i <-> -1 <= vget (normalize (map Fin l) (map Fin u) x) i <= 1).
Proof. exact unit_cube. Qed.
Print Assumptions C03_unit_cube.

Theorem C03_end_points : forall l u i, length l = length u -> (i < length l)%nat -> vget l i < vget u i ->
  vget (normalize (map Fin l) (map Fin u) l) i = -1 /\ vget (normalize (map Fin l) (map Fin u) u) i = 1.
Proof. exact unit_cube_ends. Qed.
Print Assumptions C03_end_points.

Example C03_case : normalize (map Fin [0; -1]) (map Fin [2; 3]) [2; -1] = [1; -1].
Proof. exact unit_cube_case. Qed.

(* ------------------------------ C04 ------------------------------ *)
(** holds when bounds are all finite or all infinite, and every ellipsoid is centred at the
    centre of the normalization box in each rescaled coordinate; the full claim is refuted below *)
Theorem C04_normalized_domain_partial : forall nlb nub d x, dom_wf d -> length nlb = dim d -> length nub = dim d ->
  uniform (lb d) -> uniform (ub d) -> oriented nlb nub -> Forall (quad_centred nlb nub) (quads d) ->
  length x = dim d ->
  (member (normalized_domain nlb nub d) (normalize nlb nub x) <-> member d x).
Proof. exact normalized_domain_member. Qed.
Print Assumptions C04_normalized_domain_partial.

Example C04_case : dom_wf ex_ball /\ uniform (lb ex_ball) /\ uniform (ub ex_ball) /\
  oriented [Fin 0; Fin 0] [Fin 2; Fin 4] /\ Forall (quad_centred [Fin 0; Fin 0] [Fin 2; Fin 4]) (quads ex_ball).
Proof. exact ex_ball_case. Qed.

(** a finite box with a ball whose centre is not the centre of the box: a point of the domain whose
    normalized image is outside the normalized domain *)
Theorem C04_normalized_domain_refuted : exists d x, dom_wf d /\ uniform (lb d) /\ uniform (ub d) /\
  oriented (lb d) (ub d) /\ length x = dim d /\ member d x /\
  inside1 (normalized_domain (lb d) (ub d) d) (normalize (lb d) (ub d) x) (1/10) = false.
Proof. exact normalized_domain_refuted. Qed.
Print Assumptions C04_normalized_domain_refuted.

(* ------------------------------ C05 ------------------------------ *)
Theorem C05_add_constraints_conj : forall d c tol x, dom_wf d -> dom_wf c -> dim c = dim d ->
  proper d -> proper c -> dcls d <> Point -> dcls c <> Point ->
  inside1 (add_constraints d c) x tol = (inside1 d x tol && inside1 c x tol)%bool.
Proof. exact add_constraints_inside. Qed.
Print Assumptions C05_add_constraints_conj.

Theorem C05_and_commutes : forall d c tol x, dom_wf d -> dom_wf c -> dim c = dim d ->
  proper d -> proper c -> dcls d <> Point -> dcls c <> Point ->
  inside1 (add_constraints d c) x tol = inside1 (add_constraints c d) x tol.
Proof. exact add_constraints_comm. Qed.
Print Assumptions C05_and_commutes.

Theorem C05_and_associates : forall d c e tol x, dom_wf d -> dom_wf c -> dom_wf e -> dim c = dim d -> dim e = dim d ->
  proper d -> proper c -> proper e -> dcls d <> Point -> dcls c <> Point -> dcls e <> Point ->
  inside1 (add_constraints (add_constraints d c) e) x tol = inside1 (add_constraints d (add_constraints c e)) x tol.
Proof. exact add_constraints_assoc. Qed.
Print Assumptions C05_and_associates.

Example C05_case : dom_wf ex_dom /\ proper ex_dom /\ dom_wf ex_ball /\ proper ex_ball /\ dim ex_ball = dim ex_dom /\
  inside1 (add_constraints ex_dom ex_ball) [1; 1] (1/100) = true /\
  inside1 (add_constraints ex_dom ex_ball) [0; 0] (1/100) = false.
Proof. exact add_constraints_case. Qed.

(* ------------------------------ C06 ------------------------------ *)
(** exact when x is in the set (zero tolerance), no inequality active at x is being increased,
    x is not moving inwards from the surface of an ellipsoid, and p keeps the equalities *)
Theorem C06_extent_partial : forall d tol stol x p, dom_wf d -> proper d -> dcls d <> Point -> 0 < tol -> 0 < stol ->
  length p = dim d -> member d x -> eq_kept d p -> ineq_leaves_free d x p -> quad_leaves_free d x p ->
  exists e, extent d tol stol x p = Some e /\
    forall al, 0 <= al -> (member d (along x p al) <-> nleb (Fin al) e = true).
Proof. exact extent_correct. Qed.
Print Assumptions C06_extent_partial.

Theorem C06_extent_box : forall l u tol stol x p, length l = length u -> length p = length l -> 0 < tol -> 0 < stol ->
  length x = length l -> (forall i, (i < length l)%nat -> vget l i <= vget x i <= vget u i) ->
  exists e, extent (box_of l u) tol stol x p = Some e /\
    forall al, 0 <= al -> ((forall i, (i < length l)%nat -> vget l i <= vget x i + al * vget p i <= vget u i)
                           <-> nleb (Fin al) e = true).
Proof. exact extent_box. Qed.
Print Assumptions C06_extent_box.

Example C06_case : dom_wf ex_ball /\ proper ex_ball /\ member ex_ball [1; 2] /\ eq_kept ex_ball [1; 1] /\
  ineq_leaves_free ex_ball [1; 2] [1; 1] /\ quad_leaves_free ex_ball [1; 2] [1; 1] /\
  extent ex_ball (1/100) (1/100) [1; 2] [1; 1] = Some (Fin 1).
Proof. exact extent_case. Qed.

(** a direction that leaves an equality constraint of a LinQuadDomain by more than the tolerance: the step is 0, exactly *)
Theorem C06_extent_leaves_equality : forall d tol stol x p a, dom_wf d -> proper d -> dcls d = LinQuad -> 0 < tol -> 0 < stol -> length p = dim d -> member d x ->
  In a (dAeq d) -> stol <= Rabs (dot a p) ->
  extent d tol stol x p = Some (Fin 0) /\ forall al, 0 < al -> ~ member d (along x p al).
Proof. exact extent_leaves_equality. Qed.
Print Assumptions C06_extent_leaves_equality.

Example C06_leaves_case : dom_wf ex_seg /\ proper ex_seg /\ member ex_seg [1/2; 1/2] /\ (1/1000) <= Rabs (dot [1; 1] [1; 0]) /\ extent ex_seg (1/1000) (1/1000) [1/2; 1/2] [1; 0] = Some (Fin 0).
Proof. exact extent_leaves_case. Qed.

(** on a face of a polytope the step out of the domain is reported as unlimited *)
Theorem C06_extent_face_refuted : exists d x p, dom_wf d /\ proper d /\ dcls d = LinIneq /\ member d x /\
  extent d (1/1000) (1/1000) x p = Some PInf /\ inside1 d (along x p 1) (1/1000) = false.
Proof. exact extent_face_refuted. Qed.
Print Assumptions C06_extent_face_refuted.

(** a point outside the box by less than the tolerance gets an unlimited step *)
Theorem C06_extent_tolerance_refuted : exists d x p, dom_wf d /\ proper d /\ dcls d = Box /\
  inside1 d x (1/1000) = true /\ extent d (1/1000) (1/1000) x p = Some PInf /\
  inside1 d (along x p 1) (1/1000) = false.
Proof. exact extent_tol_refuted. Qed.
Print Assumptions C06_extent_tolerance_refuted.

(** LinIneqDomain.extent ignores equality constraints *)
Theorem C06_extent_equality_refuted : exists d x p, dom_wf d /\ proper d /\ dcls d = LinIneq /\ member d x /\
  extent d (1/1000) (1/1000) x p = Some PInf /\ inside1 d (along x p 1) (1/1000) = false.
Proof. exact extent_eq_refuted. Qed.
Print Assumptions C06_extent_equality_refuted.

(** from the surface of an ellipsoid moving inwards the reported step is 0, not the chord *)
Theorem C06_extent_ellipsoid_refuted : exists d x p, dom_wf d /\ proper d /\ dcls d = LinQuad /\ member d x /\
  extent d (1/1000) (1/1000) x p = Some (Fin 0) /\ member d (along x p 1).
Proof. exact extent_quad_refuted. Qed.
Print Assumptions C06_extent_ellipsoid_refuted.

(* ------------------------------ C07 ------------------------------ *)
Theorem C07_corner_optimal : forall l u p tol, length l = length u -> length u = length p -> 0 <= tol ->
  (forall i, (i < length l)%nat -> vget l i <= vget u i) ->
  exists x, box_corner l u p tol = Some x /\ member (box_of l u) x /\
    forall z, member (box_of l u) z -> dot p z <= dot p x.
Proof. exact box_corner_optimal. Qed.
Print Assumptions C07_corner_optimal.

Theorem C07_corner_empty : forall l u p tol i, length l = length u -> length u = length p ->
  (i < length l)%nat -> vget u i + tol < vget l i -> box_corner l u p tol = None.
Proof. exact box_corner_empty. Qed.
Print Assumptions C07_corner_empty.

Example C07_case : box_corner [0; -1] [2; 3] [-1; 5] (1/100) = Some [0; 3] /\ box_corner [0; 1] [1; 0] [1; 1] (1/100) = None.
Proof. exact box_corner_case. Qed.

(* ------------------------------ C13 ------------------------------ *)
Theorem C13_half_infinite_refuted : exists d x, dom_wf d /\ proper d /\ dcls d = Box /\ length x = dim d /\
  inside1 d x 1 = false /\
  inside1 (normalized_domain (lb d) (ub d) d) (normalize (lb d) (ub d) x) 0 = true.
Proof. exact half_infinite_refuted. Qed.
Print Assumptions C13_half_infinite_refuted.

(** holds when lower (resp. upper) bounds are all finite or all infinite *)
Theorem C13_half_infinite_partial : forall d x, dom_wf d -> dcls d = Box -> uniform (lb d) -> uniform (ub d) ->
  oriented (lb d) (ub d) -> length x = dim d ->
  (member (normalized_domain (lb d) (ub d) d) (normalize (lb d) (ub d) x) <-> member d x).
Proof. exact half_infinite_uniform. Qed.
Print Assumptions C13_half_infinite_partial.

Example C13_case : dom_wf ex_half /\ dcls ex_half = Box /\ uniform (lb ex_half) /\ uniform (ub ex_half) /\
  oriented (lb ex_half) (ub ex_half).
Proof. exact ex_half_case. Qed.

(** infinite bounds stay infinite on the same side, also where other bounds become NaN *)
Theorem C13_infinite_kept : forall a b l u i, length a = length b -> length l = length a -> length u = length a ->
  (forall v, nth_error l i = Some v -> is_fin v = false -> nth_error (lb_norm a b l) i = Some NInf) /\
  (forall v, nth_error u i = Some v -> is_fin v = false -> nth_error (ub_norm a b u) i = Some PInf).
Proof. exact norm_bounds_infinite. Qed.
Print Assumptions C13_infinite_kept.

(** with uniform bounds the normalized domain has proper bounds again *)
Theorem C13_proper : forall d, dom_wf d -> uniform (lb d) -> uniform (ub d) -> proper (normalized_domain (lb d) (ub d) d).
Proof. exact norm_bounds_proper. Qed.
Print Assumptions C13_proper.

Example C13_infinite_case : lb_norm [Fin 0; NInf] [Fin 4; PInf] [Fin 0; NInf] <> [] /\ nth_error (lb_norm [Fin 0; NInf] [Fin 4; PInf] [Fin 0; NInf]) 1 = Some NInf /\ proper (normalized_domain (lb ex_half) (ub ex_half) ex_half).
Proof. exact norm_bounds_case. Qed.
