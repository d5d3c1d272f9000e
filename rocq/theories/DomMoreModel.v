(** Model of further domain operations: sweep, sample_grid, constrained least squares,
    closest point, convex hull domains, box predicates, sampling, quadrature, log-normal.
    psdr/domains/*.py, psdr/quadrature.py. *)
Require Import Reals List Bool Arith.
From Verif Require Import RVec Num DomModel.
Import ListNotations.
Local Open Scope R_scope.

(** np.linspace(a, b, n) *)
Definition linspace (a b : R) (n : nat) : vec :=
  map (fun k => a + INR k * ((b - a) / INR (n - 1))) (seq 0 n).

(* ------------------------------------------------------------------ *)
(** * sweep *)

(** sum_k c_k q_k, the product of a matrix with columns [qs] and a vector. *)
Fixpoint lincomb (m : nat) (qs : mat) (c : vec) : vec :=
  match qs, c with
  | q :: qs', a :: c' => vadd (vscale a q) (lincomb m qs' c')
  | _, _ => vzero m
  end.

(** [p -= Qeq.dot(Qeq.T.dot(p))], euclidean.py 428-429; [Q] lists the columns of _A_eq_basis
    (euclidean.py 815-824, scipy.linalg.orth). *)
Definition proj_out (Q : mat) (p : vec) : vec := vsub p (lincomb (length p) Q (mv Q p)).

(** [X = np.array([(1-alpha)*c1 + alpha*c2 for alpha in linspace(0,1,n)])], euclidean.py 436-437 *)
Definition sweep_points (c1 c2 : vec) (n : nat) : mat :=
  map (fun al => vadd (vscale (1 - al) c1) (vscale al c2)) (linspace 0 1 n).

(** [d = (X[1]-X[0])/norm(X[1]-X[0]); y = X.dot(d)], euclidean.py 439-441.
    None: IndexError (fewer than two points) or a NaN array (coinciding points, 0/0). *)
Definition sweep_pos (X : mat) : option vec :=
  match X with
  | x0 :: x1 :: _ =>
      if Req_EM_T (norm2 (vsub x1 x0)) 0 then None
      else let d := vscale (/ norm2 (vsub x1 x0)) (vsub x1 x0) in Some (mv X d)
  | _ => None
  end.

(** [sweep] with corner = False, euclidean.py 405-442.  None: assertion failure, index error
    for n < 2, or an infinite extent (the code then produces inf/NaN points). *)
Definition sweep (d : dom) (tol stol : R) (Q : mat) (n : nat) (x p : vec) : option (mat * option vec) :=
  let p' := proj_out Q p in
  match extent d tol stol x p', extent d tol stol x (vscale (-1) p') with
  | Some (Fin a1), Some (Fin a2) =>
      if Nat.leb 2 n then
        let c1 := vadd x (vscale a1 p') in
        let c2 := vadd x (vscale (- a2) p') in
        let X := sweep_points c1 c2 n in Some (X, sweep_pos X)
      else None
  | _, _ => None
  end.

(* ------------------------------------------------------------------ *)
(** * sample_grid, euclidean.py 615-635 *)

(** rows of np.meshgrid( *xs, indexing='ij') flattened in C order *)
Fixpoint cart (xs : list vec) : mat :=
  match xs with
  | [] => [[]]
  | x :: xs' => flat_map (fun a => map (cons a) (cart xs')) x
  end.

(** X[I] for a boolean mask *)
Fixpoint mask {A : Type} (J : list bool) (X : list A) : list A :=
  match J, X with
  | b :: J', x :: X' => if b then x :: mask J' X' else mask J' X'
  | _, _ => []
  end.

Definition fin_val (a : num) : R := match a with Fin r => r | _ => 0 end.

Definition sample_grid (d : dom) (n : nat) (tol : R) : option mat :=
  if (forallb is_fin (lb d) && forallb is_fin (ub d))%bool then
    let xs := zipw (fun l u => linspace (fin_val l) (fin_val u) n) (lb d) (ub d) in
    let Xgrid := cart xs in
    match isinside d (Arr2 (dim d) Xgrid) tol with
    | BArr J => Some (mask J Xgrid)
    | Scalar _ => None
    end
  else None.

(* ------------------------------------------------------------------ *)
(** * Convex programs in normalized coordinates *)

(** constraint set of _build_constraints_norm, linquad.py 268-293: exactly the constraints of
    the normalized domain (non-finite entries of lb_norm/ub_norm are skipped). *)
Definition norm_feasible (nlb nub : list num) (d : dom) (z : vec) : Prop :=
  let dn := normalized_domain nlb nub d in
  length z = dim d /\
  (forall i v, nth_error (lb dn) i = Some (Fin v) -> v <= vget z i) /\
  (forall i v, nth_error (ub dn) i = Some (Fin v) -> vget z i <= v) /\
  (forall k a c, nth_error (dA dn) k = Some a -> nth_error (db dn) k = Some c -> dot a z <= c) /\
  (forall k a c, nth_error (dAeq dn) k = Some a -> nth_error (dbeq dn) k = Some c -> dot a z = c) /\
  (forall q, In q (quads dn) -> norm2 (vsub (mv (qL q) z) (mv (qL q) (qy q))) <= qrho q).

(** objective of _constrained_least_squares, euclidean.py 359 *)
Definition cls_obj (nlb nub : list num) (A : mat) (b : vec) (z : vec) : R :=
  norm2 (vsub (vsub (mv (A_norm nlb nub A) z) b) (mv A (center nlb nub))).
(** objective of _closest_point, euclidean.py 209-213 *)
Definition cp_obj (nlb nub : list num) (L : mat) (x0 : vec) (z : vec) : R :=
  norm2 (vsub (mv (A_norm nlb nub L) z) (mv (A_norm nlb nub L) (normalize nlb nub x0))).
(** objective of _corner, euclidean.py 279-282 (maximised) *)
Definition corner_obj (nlb nub : list num) (p z : vec) : R :=
  dot (mv (diag (uslopes nlb nub)) p) z.

(** an exact solver: [z] minimises [obj] over [feas] *)
Definition argmin (obj : vec -> R) (feas : vec -> Prop) (z : vec) : Prop :=
  feas z /\ forall w, feas w -> obj z <= obj w.

(** [x] is what constrained_least_squares returns with an exact solver, euclidean.py 343-379 *)
Definition cls_returns (nlb nub : list num) (d : dom) (A : mat) (b x : vec) : Prop :=
  exists z, argmin (cls_obj nlb nub A b) (norm_feasible nlb nub d) z /\ x = unnormalize nlb nub z.
(** closest_point, euclidean.py 192-225 *)
Definition closest_returns (nlb nub : list num) (d : dom) (tol : R) (L : mat) (x0 x : vec) : Prop :=
  if inside1 d x0 tol then x = x0
  else exists z, argmin (cp_obj nlb nub L x0) (norm_feasible nlb nub d) z /\ x = unnormalize nlb nub z.
(** corner of a LinQuadDomain / LinIneqDomain, euclidean.py 265-307 *)
Definition corner_returns (nlb nub : list num) (d : dom) (p x : vec) : Prop :=
  exists z, argmin (fun w => - corner_obj nlb nub p w) (norm_feasible nlb nub d) z /\ x = unnormalize nlb nub z.

(* ------------------------------------------------------------------ *)
(** * Convex hull domains, convexhull.py *)

(** [_X] and the additional linear-quadratic constraints *)
Record hull := mkHull { hX : mat; hcon : dom }.

(** coordinatewise min / max of the points, convexhull.py 160-161 *)
Definition col (X : mat) (i : nat) : vec := map (fun x => vget x i) X.
Definition vmin (x : vec) : R := match x with [] => 0 | a :: x' => fold_left Rmin x' a end.
Definition vmax (x : vec) : R := match x with [] => 0 | a :: x' => fold_left Rmax x' a end.
Definition hull_nlb (h : hull) : list num := map (fun i => Fin (vmin (col (hX h) i))) (seq 0 (dim (hcon h))).
Definition hull_nub (h : hull) : list num := map (fun i => Fin (vmax (col (hX h) i))) (seq 0 (dim (hcon h))).

(** residual [X_norm.T; 1] alpha - [x_norm; 1] of coefficients(), convexhull.py 203-211 *)
Definition hull_res (h : hull) (x : vec) (al : vec) : R :=
  let Xn := map (normalize (hull_nlb h) (hull_nub h)) (hX h) in
  let xn := normalize (hull_nlb h) (hull_nub h) x in
  norm2sq (vsub (lincomb (dim (hcon h)) Xn al) xn) + (vsum al - 1) * (vsum al - 1).

(** contract of scipy.optimize.nnls: a non-negative least squares solution *)
Definition nnls_contract (h : hull) (x al : vec) : Prop :=
  length al = length (hX h) /\ Forall (fun a => 0 <= a) al /\
  forall be, length be = length (hX h) -> Forall (fun a => 0 <= a) be -> hull_res h x al <= hull_res h x be.

(** _isinside of one row with coefficients [al], convexhull.py 261-277 *)
Definition hull_isinside (h : hull) (al x : vec) (tol : R) : bool :=
  (Rltb (norm2 (vsub x (lincomb (dim (hcon h)) (hX h) al))) tol && inside1 (hcon h) x tol)%bool.

(** ConvexHullDomain.add_constraints, convexhull.py 279-301 (the points are kept); the merged
    constraints are stored in a LinQuadDomain whatever their kind *)
Definition hull_add (h : hull) (c : dom) : hull :=
  let r := add_constraints (hcon h) c in
  mkHull (hX h) (mkDom LinQuad (dim r) (lb r) (ub r) (dA r) (db r) (dAeq r) (dbeq r) (quads r)).

(** LinQuadDomain.__and__ with a hull, linquad.py 362-371: a ConvexHullDomain is an instance of
    LinQuadDomain, so only its constraint data is read *)
Definition and_hull (d : dom) (h : hull) : dom := add_constraints d (hcon h).

(** to_linineq of a hull with one point, convexhull.py 28-37 and 190-200: equality constraints
    A_eq = I, b_eq = x, then add_constraints without the bounds *)
Definition hull1_to_linineq (x : vec) (c : dom) : dom :=
  let m := dim c in
  add_constraints (mkDom LinQuad m (repeat NInf m) (repeat PInf m) [] [] (diag (repeat 1 m)) x [])
    (mkDom LinQuad m (repeat NInf m) (repeat PInf m) (dA c) (db c) (dAeq c) (dbeq c) (quads c)).

(* ------------------------------------------------------------------ *)
(** * Cached predicates of a box, box.py 32-55 *)
Record cache := mkCache { c_empty : option bool; c_point : option bool; c_unb : option bool }.
Definition fresh : cache := mkCache None None None.

Definition any_gt (l u : list num) : bool := existsb (fun b => b) (zipw (fun a b => nltb b a) l u).
Definition nabs (a : num) : num := match a with Fin r => Fin (Rabs r) | PInf | NInf => PInf | NaN => NaN end.
Definition all_close (l u : list num) (tol : R) : bool :=
  forallb (fun b => b) (zipw (fun a b => nltb (nabs (nsub b a)) (Fin tol)) l u).
Definition any_inf (l u : list num) : bool := (existsb is_inf l || existsb is_inf u)%bool.

(** is_empty also writes the caches of is_point and is_unbounded, box.py 32-39 *)
Definition get_empty (l u : list num) (c : cache) : bool * cache :=
  match c_empty c with
  | Some b => (b, c)
  | None => let b := any_gt l u in (b, mkCache (Some b) (Some false) (Some false))
  end.
Definition get_point (l u : list num) (tol : R) (c : cache) : bool * cache :=
  match c_point c with
  | Some b => (b, c)
  | None => let b := all_close l u tol in (b, mkCache (c_empty c) (Some b) (c_unb c))
  end.
Definition get_unb (l u : list num) (c : cache) : bool * cache :=
  match c_unb c with
  | Some b => (b, c)
  | None => let b := any_inf l u in (b, mkCache (c_empty c) (c_point c) (Some b))
  end.

Inductive query := QEmpty | QPoint | QUnb | QSample.
(** QSample: _sample asks is_empty first, box.py 59-63; only its effect on the caches is kept *)
Definition ask (l u : list num) (tol : R) (q : query) (c : cache) : bool * cache :=
  match q with
  | QEmpty | QSample => get_empty l u c
  | QPoint => get_point l u tol c
  | QUnb => get_unb l u c
  end.
Fixpoint run_queries (l u : list num) (tol : R) (qs : list query) (c : cache) : list bool * cache :=
  match qs with
  | [] => ([], c)
  | q :: qs' => let (b, c1) := ask l u tol q c in
                let (bs, c2) := run_queries l u tol qs' c1 in (b :: bs, c2)
  end.

(* ------------------------------------------------------------------ *)
(** * Sampling *)

(** np.random.uniform(lb, ub) on one row with uniforms [r] in [0,1), box.py 59-63 *)
Definition box_row (l u r : vec) : vec := vadd l (vmul (vsub u l) r).
Definition box_sample_ (l u : vec) (rows : mat) : option mat :=
  if existsb (fun b => b) (zipw (fun a b => Rltb b a) l u) then None
  else Some (map (box_row l u) rows).

(** sample wrapper, euclidean.py 570-600: [draw] as an integer, [_sample] with a positive draw *)
Definition sample (draw : Z) (samp : nat -> option mat) : option mat :=
  if (draw <=? 0)%Z then Some [] else samp (Z.to_nat draw).

(** rejection loop of NormalDomain._sample, normal.py 96-107.  [rng k i]: the row drawn in round
    [k] for sample [i] (the code draws only the rows that are replaced). *)
Definition bad_row (clip : R) (x : vec) : bool := Rltb clip (norm2sq x).
Fixpoint mapi {A B : Type} (f : nat -> A -> B) (i : nat) (l : list A) : list B :=
  match l with [] => [] | a :: l' => f i a :: mapi f (S i) l' end.
Fixpoint reject_loop (fuel k : nat) (clip : R) (rng : nat -> nat -> vec) (X : mat) : option mat :=
  if forallb (fun x => negb (bad_row clip x)) X then Some X
  else match fuel with
       | O => None
       | S f => reject_loop f (S k) clip rng (mapi (fun i x => if bad_row clip x then rng k i else x) 0 X)
       end.
(** NormalDomain._sample, normal.py 96-110; [None] clip: no truncation *)
Definition normal_sample (mean : vec) (L : mat) (clip : option R) (fuel : nat)
    (rng0 : nat -> vec) (rng : nat -> nat -> vec) (draw : nat) : option mat :=
  let X := map rng0 (seq 0 draw) in
  match (match clip with None => Some X | Some c => reject_loop fuel 0 c rng X end) with
  | None => None
  | Some Y => Some (map (fun x => vadd mean (mv L x)) Y)
  end.
(** the constraint data of a NormalDomain, normal.py 70-92, 126-150 *)
Definition normal_dom (mean : vec) (Linv : mat) (clip : option R) : dom :=
  let m := length mean in
  mkDom LinQuad m (repeat NInf m) (repeat PInf m) [] [] [] []
    (match clip with None => [] | Some c => [mkQuad Linv mean (sqrt c)] end).

(** _hit_and_run, euclidean.py 856-906.  Oracles: [start] (chebyshev_center or _corner_center),
    [closest] (closest_point), [dirs] (accepted random directions, normalised), [us] (uniforms),
    both indexed by the number [k] of random draws so far; [ext] is self.extent.
    None: an exception. *)
Section HitRun.
  Variable start : option vec.
  Variable is_pt : bool.
  Variable closest : vec -> option vec.
  Variable ext : vec -> vec -> option num.
  Variable dirs : nat -> vec.
  Variable us : nat -> R.
  Variable mdim : nat.

  (** the for loop; [None] outside: exception, [Some None]: no direction found *)
  Fixpoint hr_loop (it k : nat) (x0 : vec) : option (option vec) * nat :=
    match it with
    | O => (Some None, k)
    | S it' =>
        let p := dirs k in
        match ext x0 (vscale (-1) p), ext x0 p with
        | Some (Fin a), Some (Fin b) =>
            if Rltb (1/10000000) (b - - a)
            then (match closest (vadd x0 (vscale (- a + (b - - a) * us k) p)) with
                  | Some x1 => (Some (Some x1), S k)
                  | None => (None, S k)
                  end)
            else hr_loop it' (S k) x0
        | _, _ => (None, S k)
        end
    end.

  (** [recurse] counts the remaining levels (the code starts with _recurse = 2: three levels) *)
  Fixpoint hit_and_run (recurse k : nat) (state : option vec) : option vec * option vec * nat :=
    match recurse with
    | O => (None, state, k)
    | S r =>
        match (match state with Some x => Some x | None => start end) with
        | None => (None, state, k)
        | Some x0 =>
            if is_pt then (Some x0, Some x0, k)
            else match hr_loop mdim k x0 with
                 | (None, k') => (None, Some x0, k')
                 | (Some (Some x1), k') => (Some x1, Some x1, k')
                 | (Some None, k') => hit_and_run r k' None
                 end
        end
    end.

  Fixpoint hr_many (n k : nat) (state : option vec) : option mat * option vec * nat :=
    match n with
    | O => (Some [], state, k)
    | S n' => match hit_and_run 3 k state with
              | (Some x, st, k') => match hr_many n' k' st with
                                    | (Some X, st', k'') => (Some (x :: X), st', k'')
                                    | (None, st', k'') => (None, st', k'')
                                    end
              | (None, st, k') => (None, st, k')
              end
    end.

  (** EuclideanDomain._sample, euclidean.py 602-612; [cen] is self.center, [perm] the permutation *)
  Definition euclid_sample (cen : vec) (perm : list nat) (st : option vec) (draw : nat) : option mat :=
    if is_pt then Some (repeat cen draw)
    else match hr_many (3 * draw) 0 st with
         | (Some X, _, _) => Some (map (fun i => nth i X []) (firstn draw perm))
         | (None, _, _) => None
         end.
End HitRun.

(* ------------------------------------------------------------------ *)
(** * Gauss quadrature, psdr/quadrature.py 7-47, and quadrature_rule on domains *)

(** entry i (from 1) of beta = 0.5/sqrt(1 - (2i)^(-2)), quadrature.py 36 *)
Definition gbeta (i : nat) : R := (1/2) / sqrt (1 - / (INR (2 * i) * INR (2 * i))).
(** T = diag(beta,1) + diag(beta,-1), n x n, quadrature.py 37 *)
Definition jacobi (n : nat) : mat :=
  map (fun i => map (fun j => if Nat.eqb j (S i) then gbeta (S i) else if Nat.eqb i (S j) then gbeta (S j) else 0)
                    (seq 0 n)) (seq 0 n).
(** contract of scipy.linalg.eigh on an n x n matrix T: eigenvalues [ew], orthonormal eigenvectors
    as the columns [ev] (unit columns, unit first row) *)
Definition eigh_contract (n : nat) (T : mat) (ew : vec) (ev : mat) : Prop :=
  length ew = n /\ length ev = n /\ Forall (fun c => length c = n) ev /\
  (forall j, (j < n)%nat -> dot (nth j ev []) (nth j ev []) = 1 /\
                            mv T (nth j ev []) = vscale (vget ew j) (nth j ev [])) /\
  vsum (map (fun c => vget c 0 * vget c 0) ev) = 1.
(** quadrature.py 40-47 *)
Definition gauss_x (ew : vec) (a b : R) : vec := map (fun x => a + (b - a) / 2 * (1 + x)) ew.
Definition gauss_w (ev : mat) (a b : R) : vec := map (fun c => ((b - a) / 2) * (2 * (vget c 0 * vget c 0))) ev.

(** tensor rule: points with product weights, euclidean.py 740-758 (the order of np.meshgrid's
    default 'xy' indexing is a permutation, applied to points and weights alike; not modelled) *)
Fixpoint cart_w (rules : list (vec * vec)) : list (vec * R) :=
  match rules with
  | [] => [([], 1)]
  | (x, w) :: rs => flat_map (fun aw => map (fun pw => (fst aw :: fst pw, snd aw * snd pw)) (cart_w rs)) (combine x w)
  end.
(** quad(qs) restricted to the points inside, euclidean.py 760-765 *)
Definition quad_inside (d : dom) (tol : R) (rules : list (vec * vec)) : list (vec * R) :=
  filter (fun pw => inside1 d (fst pw) tol) (cart_w rules).
(** the refinement loop, euclidean.py 767-786; [rules k] is the rule with k points per axis.
    None: out of fuel. *)
Fixpoint quad_loop (fuel : nat) (d : dom) (tol : R) (rules : nat -> list (vec * vec)) (N q : nat)
    (cur : list (vec * R)) : option (list (vec * R)) :=
  match fuel with
  | O => None
  | S f => let new := quad_inside d tol (rules (S q)) in
           if Nat.leb (length new) N then quad_loop f d tol rules N (S q) new else Some cur
  end.
Definition quadrature_gauss (fuel : nat) (d : dom) (tol : R) (rules : nat -> list (vec * vec)) (N q : nat) : option (list (vec * R)) :=
  let cur := quad_inside d tol (rules q) in
  if Nat.eqb (q ^ dim d) (length cur) then Some cur else quad_loop fuel d tol rules N q cur.
(** q = int(floor(N ** (1/m))), euclidean.py 722 *)
Definition quad_q (N m : nat) : nat := Z.to_nat (Int_part (Rpower (INR N) (/ INR m))).
(** Monte Carlo weights, euclidean.py 790-799 *)
Definition mc_weights (N : nat) (vol : R) : vec := repeat (1 / INR N * vol) N.

(* ------------------------------------------------------------------ *)
(** * LogNormalDomain, lognormal.py 36-65 *)
(** bounds: [nlb],[nub] are norm_lb, norm_ub of the underlying truncated normal *)
Definition logn_lb (offset scaling : R) (trunc : option (R * R)) : num :=
  match trunc with Some (nlb, _) => Fin (offset + scaling * exp nlb) | None => Fin 0 end.
Definition logn_ub (offset scaling : R) (trunc : option (R * R)) : num :=
  match trunc with Some (_, nub) => Fin (offset + scaling * exp nub) | None => PInf end.
(** LogNormalDomain._pdf, lognormal.py 77-80 *)
Definition logn_pdf (mean cov offset scaling x : R) : R :=
  let xn := (x - offset) / scaling in
  exp (- ((ln xn - mean) * (ln xn - mean) / (2 * cov))) / (xn * cov * sqrt (2 * PI)).
Definition logn_sample (offset scaling y : R) : R := offset + scaling * exp y.

(* ------------------------------------------------------------------ *)
(** * Extent of a hull, convexhull.py 68-97 *)
(** feasibility of the step [beta]: the linear constraints of the program; the remaining
    constraints (line 82) only involve the start point *)
Definition hull_step (h : hull) (x p : vec) (beta : R) : Prop :=
  let N := normalize (hull_nlb h) (hull_nub h) in
  exists al, length al = length (hX h) /\ Forall (fun a => 0 <= a) al /\ vsum al = 1 /\
    lincomb (dim (hcon h)) (map N (hX h)) al = vadd (vscale beta (vsub (N (vadd x p)) (N x))) (N x).
(** value returned with an exact LP solver *)
Definition hull_extent_returns (h : hull) (x p : vec) (e : R) : Prop :=
  norm_feasible (hull_nlb h) (hull_nub h) (hcon h) (normalize (hull_nlb h) (hull_nub h) x) /\
  hull_step h x p e /\ forall beta, hull_step h x p beta -> beta <= e.
(** two-point sampling, convexhull.py 228-230 *)
Definition hull_two_sample (x0 x1 : vec) (us : vec) : mat :=
  map (fun a => vadd (vscale a x0) (vscale (1 - a) x1)) us.

(** TensorProductDomain._sample, tensor.py 65-69: hstack of the samples of the factors *)
Definition tensor_rows (Xs : list mat) (draw : nat) : mat :=
  map (fun i => concat (map (fun X => nth i X []) Xs)) (seq 0 draw).

(** PointDomain._sample, point.py 47-48 *)
Definition point_sample (x : vec) (draw : nat) : mat := repeat x draw.

(* ------------------------------------------------------------------ *)
(** * Chebyshev center, linineq.py 61-126 *)
Definition unit_row_ (m i : nat) : vec := map (fun j => if Nat.eqb j i then 1 else 0) (seq 0 m).
Definition fin_idx (l : list num) : list nat := filter (fun i => is_fin (nth i l NaN)) (seq 0 (length l)).
(** A_aug, b_aug, euclidean.py 925-937: rows of A, then -I rows at finite lower bounds, then I rows *)
Definition A_aug (d : dom) : mat :=
  dA d ++ map (fun i => vscale (-1) (unit_row_ (dim d) i)) (fin_idx (lb d)) ++ map (unit_row_ (dim d)) (fin_idx (ub d)).
Definition b_aug (d : dom) : vec :=
  db d ++ map (fun i => - fin_val (nth i (lb d) NaN)) (fin_idx (lb d)) ++ map (fun i => fin_val (nth i (ub d) NaN)) (fin_idx (ub d)).
(** feasibility of (x, r) in the linear program, linineq.py 93-104 *)
Definition cheb_feasible (d : dom) (x : vec) (r : R) : Prop :=
  length x = dim d /\
  (forall k a c, nth_error (A_aug d) k = Some a -> nth_error (b_aug d) k = Some c -> dot a x + norm2 a * r <= c) /\
  (forall k a c, nth_error (dAeq d) k = Some a -> nth_error (dbeq d) k = Some c -> dot a x = c).
(** value returned with an exact LP solver *)
Definition cheb_returns (d : dom) (x : vec) (r : R) : Prop :=
  cheb_feasible d x r /\ forall y s, cheb_feasible d y s -> s <= r.

(** _hull_to_linineq when the points are collinear, convexhull.py 40-65 with Y.shape[1] = 1: [q] is
    the column of Qpar, [P] the columns of Qperp *)
Definition interval_dom (m : nat) (X : mat) (q : vec) (P : mat) : dom :=
  let Y := map (dot q) X in
  mkDom LinQuad m (repeat NInf m) (repeat PInf m) [q; vscale (-1) q] [vmax Y; - vmin Y]
    P (map (fun p => vsum (map (dot p) X) / INR (length X)) P) [].
