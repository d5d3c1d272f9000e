(** Model of psdr/domains: Euclidean, LinQuad, LinIneq, Box and Point domains.

    Simplifications common to the whole file:
    - floats are exact reals, bounds carry the IEEE special values ([num]);
    - names, solver keyword arguments and printing are not modelled;
    - a 2-d array is the list of its rows together with its number of columns. *)
Require Import Reals Lra Lia List Bool.
From Verif Require Import RVec Num.
Import ListNotations.
Local Open Scope R_scope.

(** Quadratic constraint ||L (x - y)||_2 <= rho.
    psdr/domains/linquad.py 186-207 (entries of Ls, ys, rhos, zipped). *)
Record quad := mkQuad { qL : mat; qy : vec; qrho : R }.

(** Which class the object is an instance of; it selects the overridden methods.
    psdr/domains/linquad.py 21, linineq.py 12, box.py 11, point.py 8. *)
Inductive cls := LinQuad | LinIneq | Box | Point.

(** State of a domain object that the modelled methods read:
    [_dimension], [lb], [ub], [A], [b], [A_eq], [b_eq], [Ls,ys,rhos].
    psdr/domains/linquad.py 63-83, 212-239. *)
Record dom := mkDom {
  dcls : cls;
  dim : nat;
  lb : list num;
  ub : list num;
  dA : mat;
  db : vec;
  dAeq : mat;
  dbeq : vec;
  quads : list quad }.

(** Shapes enforced by the constructors (assertions in linquad.py 125-207), plus
    linineq.py 144-151 (no quadratic constraints) and box.py 84-94 (only bounds). *)
Definition quad_wf (m : nat) (q : quad) : Prop :=
  Forall (fun r => length r = m) (qL q) /\ length (qy q) = m /\ 0 < qrho q.

Definition dom_wf (d : dom) : Prop :=
  length (lb d) = dim d /\ length (ub d) = dim d /\
  Forall (fun r => length r = dim d) (dA d) /\ length (dA d) = length (db d) /\
  Forall (fun r => length r = dim d) (dAeq d) /\ length (dAeq d) = length (dbeq d) /\
  Forall (quad_wf (dim d)) (quads d) /\
  (dcls d <> LinQuad -> quads d = []) /\
  (dcls d = Box \/ dcls d = Point -> dA d = [] /\ dAeq d = []) /\
  (dcls d = Point -> exists x, lb d = map Fin x /\ ub d = map Fin x).

(* ------------------------------------------------------------------ *)
(** * Membership *)

Definition band (x y : list bool) : list bool := zipw andb x y.

(** [_isinside_bounds], psdr/domains/euclidean.py 1116-1129: loop over the coordinates,
    and-ing a column comparison into the two check arrays.  [n] counts the coordinates
    done so far.  Non-finite bounds (np.isfinite false, including NaN) are skipped. *)
Fixpoint isinside_bounds_loop (d : dom) (X : mat) (tol : R) (n : nat) : list bool * list bool :=
  match n with
  | O => (map (fun _ => true) X, map (fun _ => true) X)
  | S i =>
      let (lc, uc) := isinside_bounds_loop d X tol i in
      let lc' := match nth i (lb d) NaN with
                 | Fin l => band lc (map (fun x => Rleb (l - tol) (vget x i)) X)
                 | _ => lc
                 end in
      let uc' := match nth i (ub d) NaN with
                 | Fin u => band uc (map (fun x => Rleb (vget x i) (u + tol)) X)
                 | _ => uc
                 end in
      (lc', uc')
  end.

Definition isinside_bounds (d : dom) (X : mat) (tol : R) : list bool :=
  let (lc, uc) := isinside_bounds_loop d X tol (dim d) in band lc uc.

(** [_isinside_ineq], euclidean.py 1131-1133. *)
Definition isinside_ineq (d : dom) (X : mat) (tol : R) : list bool :=
  map (fun x => forallb (fun c => c) (zipw (fun l r => Rleb l (r + tol)) (mv (dA d) x) (db d))) X.

(** [_isinside_eq], euclidean.py 1135-1137 (note the strict comparison). *)
Definition isinside_eq (d : dom) (X : mat) (tol : R) : list bool :=
  map (fun x => forallb (fun c => c)
                  (zipw (fun l r => Rltb (Rabs (l - r)) tol) (mv (dAeq d) x) (dbeq d))) X.

(** [_isinside_quad], euclidean.py 1139-1148. *)
Definition isinside_quad (d : dom) (X : mat) (tol : R) : list bool :=
  fold_left (fun inside q =>
      band inside (map (fun x =>
        Rleb (sqrt (vsum (map (fun t => t * t) (mv (qL q) (vsub x (qy q)))))) (qrho q + tol)) X))
    (quads d) (map (fun _ => true) X).

(** np.all(X == x_point, axis = 1), psdr/domains/point.py 43-45. *)
Definition isinside_point (d : dom) (X : mat) : list bool :=
  map (fun x => forallb (fun c => c) (zipw (fun a l => neqb (Fin a) l) x (lb d))) X.

(** [_isinside] of each class: linquad.py 254-255, linineq.py 49-50, box.py 77-78,
    point.py 43-45. *)
Definition isinside_rows (d : dom) (X : mat) (tol : R) : list bool :=
  match dcls d with
  | LinQuad => band (band (band (isinside_bounds d X tol) (isinside_ineq d X tol))
                      (isinside_eq d X tol)) (isinside_quad d X tol)
  | LinIneq => band (band (isinside_bounds d X tol) (isinside_ineq d X tol)) (isinside_eq d X tol)
  | Box => isinside_bounds d X tol
  | Point => isinside_point d X
  end.

(** numpy array argument after np.atleast_1d: a 1-d array or a 2-d array with [k] columns *)
Inductive arr := Arr1 (x : vec) | Arr2 (k : nat) (X : mat).
(** Result: a python [False] or an array of booleans. *)
Inductive bres := Scalar (b : bool) | BArr (l : list bool).

(** [isinside], euclidean.py 493-513. *)
Definition isinside (d : dom) (X : arr) (tol : R) : bres :=
  match X with
  | Arr1 x => if Nat.eqb (length x) (dim d) then BArr (isinside_rows d [x] tol) else Scalar false
  | Arr2 k X' => if Nat.eqb k (dim d) then BArr (isinside_rows d X' tol)
                 else BArr (map (fun _ => false) X')
  end.

(** Truth value of [isinside(x)] for a single point, as used in assertions and branches. *)
Definition inside1 (d : dom) (x : vec) (tol : R) : bool :=
  match isinside d (Arr1 x) tol with Scalar b => b | BArr l => forallb (fun b => b) l end.

(* ------------------------------------------------------------------ *)
(** * Normalization *)

(** Normalization bounds, euclidean.py 1019-1072.  [clo i]/[chi i] are the results of the
    [corner] calls (coordinate i of the corner, or an infinity when the call raised
    SolverError/UnboundedDomainException). *)
Definition norm_lb_i (l u corner : num) : num :=
  match l with
  | Fin a => match u with Fin b => Fin (Rmin a b) | _ => Fin a end
  | _ => corner
  end.
Definition norm_ub_i (l u corner : num) : num :=
  match u with
  | Fin b => match l with
             | Fin a => Fin (Rmax b a)
             | NaN => Fin b
             | PInf => PInf
             | NInf => Fin b
             end
  | _ => corner
  end.

(** Slope of one coordinate of [_normalize_der], euclidean.py 1081-1087. *)
Definition nslope (l u : num) : R :=
  match l, u with
  | Fin a, Fin b => if Req_EM_T b a then 1 else 2 / (b - a)
  | _, _ => 1
  end.
(** Slope of one coordinate of [_unnormalize_der], euclidean.py 1089-1093. *)
Definition uslope (l u : num) : R :=
  match l, u with
  | Fin a, Fin b => if Req_EM_T b a then 1 else (b - a) / 2
  | _, _ => 1
  end.
(** One coordinate of [_center], euclidean.py 1095-1099. *)
Definition center_i (l u : num) : R :=
  match l, u with
  | Fin a, Fin b => (a + b) / 2
  | _, _ => 0
  end.

(** np.diag(slope), a dense square matrix. *)
Definition diag (s : vec) : mat :=
  map (fun i => map (fun j => if Nat.eqb i j then vget s i else 0) (seq 0 (length s)))
      (seq 0 (length s)).

Definition nslopes (nlb nub : list num) : vec := zipw nslope nlb nub.
Definition uslopes (nlb nub : list num) : vec := zipw uslope nlb nub.
Definition center (nlb nub : list num) : vec := zipw center_i nlb nub.

(** [_normalize] on one row, euclidean.py 1101-1105: D.dot(x - c) with dense D. *)
Definition normalize (nlb nub : list num) (x : vec) : vec :=
  mv (diag (nslopes nlb nub)) (vsub x (center nlb nub)).
(** [_unnormalize] on one row, euclidean.py 1107-1111. *)
Definition unnormalize (nlb nub : list num) (z : vec) : vec :=
  vadd (mv (diag (uslopes nlb nub)) z) (center nlb nub).

(** The same [_normalize] applied to a row that may contain special values
    (used by [lb_norm]/[ub_norm]); dense product with IEEE rules. *)
Definition ndot (a : vec) (x : list num) : num := nsum (zipw (fun c v => nmul (Fin c) v) a x).
Definition normalizeN (nlb nub : list num) (x : list num) : list num :=
  map (fun row => ndot row (zipw (fun v c => nsub v (Fin c)) x (center nlb nub)))
      (diag (nslopes nlb nub)).

(** [lb_norm], [ub_norm], euclidean.py 955-967. *)
Definition lb_norm (nlb nub l : list num) : list num :=
  zipw (fun v l => if is_fin l then v else NInf) (normalizeN nlb nub l) l.
Definition ub_norm (nlb nub u : list num) : list num :=
  zipw (fun v u => if is_fin u then v else PInf) (normalizeN nlb nub u) u.

(** A.dot(D) for a matrix with rows [r]: row i is (sum_k r_k D_kj)_j. *)
Definition mat_col (D : mat) (j : nat) : vec := map (fun r => vget r j) D.
Definition matmul (A D : mat) (m : nat) : mat :=
  map (fun r => map (fun j => dot r (mat_col D j)) (seq 0 m)) A.

(** [A_norm] etc., euclidean.py 969-1001. *)
Definition A_norm (nlb nub : list num) (A : mat) : mat :=
  matmul A (diag (uslopes nlb nub)) (length (uslopes nlb nub)).
Definition b_norm (nlb nub : list num) (A : mat) (b : vec) : vec :=
  vsub b (mv A (center nlb nub)).
Definition quad_norm (nlb nub : list num) (q : quad) : quad :=
  mkQuad (A_norm nlb nub (qL q)) (vsub (qy q) (center nlb nub)) (qrho q).

(** [_normalized_domain]: linquad.py 247-252, linineq.py 55-58, box.py 80-82.
    A PointDomain inherits the BoxDomain version, hence the result is a Box. *)
Definition normalized_domain (nlb nub : list num) (d : dom) : dom :=
  let lbn := lb_norm nlb nub (lb d) in
  let ubn := ub_norm nlb nub (ub d) in
  match dcls d with
  | LinQuad => mkDom LinQuad (dim d) lbn ubn (A_norm nlb nub (dA d)) (b_norm nlb nub (dA d) (db d))
       (A_norm nlb nub (dAeq d)) (b_norm nlb nub (dAeq d) (dbeq d)) (map (quad_norm nlb nub) (quads d))
  | LinIneq => mkDom LinIneq (dim d) lbn ubn (A_norm nlb nub (dA d)) (b_norm nlb nub (dA d) (db d))
       (A_norm nlb nub (dAeq d)) (b_norm nlb nub (dAeq d) (dbeq d)) []
  | Box | Point => mkDom Box (dim d) lbn ubn [] [] [] [] []
  end.

(* ------------------------------------------------------------------ *)
(** * Adding constraints *)

(** [add_constraints], linquad.py 328-360.  The added constraints [c] are a record of the
    same shape (missing arguments are the defaults of [_init_*]: infinite bounds, empty
    matrices). *)
Definition add_constraints (d c : dom) : dom :=
  let l := zipw nmax (lb c) (lb d) in
  let u := zipw nmin (ub c) (ub d) in
  let A := dA d ++ dA c in
  let b := db d ++ db c in
  let Aeq := dAeq d ++ dAeq c in
  let beq := dbeq d ++ dbeq c in
  let qs := quads d ++ quads c in
  match qs with
  | _ :: _ => mkDom LinQuad (dim d) l u A b Aeq beq qs
  | [] => if (negb (Nat.eqb (length b) 0) || negb (Nat.eqb (length beq) 0))%bool
          then mkDom LinIneq (dim d) l u A b Aeq beq []
          else mkDom Box (dim d) l u [] [] [] [] []
  end.

(* ------------------------------------------------------------------ *)
(** * Extent *)

(** Running minimum with the positive entries of [y]: the repeated
    [if np.any(y>0): alpha = min(alpha, np.min(y[y>0]))] of euclidean.py 1155-1190. *)
Definition min_pos (alpha : num) (y : list num) : num :=
  fold_left (fun a v => if nltb (Fin 0) v then nmin a v else a) y alpha.

(** Entries [I = np.nonzero(p)] of (bound - x)/p, euclidean.py 1166-1176. *)
Fixpoint ratios (bd : list num) (x p : vec) : list num :=
  match bd, x, p with
  | l :: bd', a :: x', c :: p' =>
      if Req_EM_T c 0 then ratios bd' x' p'
      else ndivr (nsub l (Fin a)) c :: ratios bd' x' p'
  | _, _, _ => []
  end.

(** [np.any(p[bd == x] < 0)] resp. [> 0]. *)
Definition hits (bd : list num) (x p : vec) (bad : R -> bool) : bool :=
  existsb (fun t => t) (zipw andb (zipw (fun l a => neqb l (Fin a)) bd x) (map bad p)).

(** [_extent_bounds], euclidean.py 1155-1179. *)
Definition extent_bounds (d : dom) (x p : vec) : num :=
  if hits (lb d) x p (fun c => Rltb c 0) then Fin 0
  else if hits (ub d) x p (fun c => Rltb 0 c) then Fin 0
  else min_pos (min_pos PInf (ratios (ub d) x p)) (ratios (lb d) x p).

(** [_extent_ineq], euclidean.py 1181-1190 (division by zero gives inf/NaN). *)
Definition extent_ineq (d : dom) (x p : vec) : num :=
  min_pos PInf (zipw (fun r q => ndivr (Fin r) q) (vsub (db d) (mv (dA d) x)) (mv (dA d) p)).

(** np.roots([a,b,c]) restricted to its real roots, euclidean.py 1203-1204.  Leading zero
    coefficients are stripped by np.roots; complex roots are filtered by np.isreal. *)
Definition real_roots (a b c : R) : list R :=
  if Req_EM_T a 0 then (if Req_EM_T b 0 then [] else [- c / b])
  else let disc := b * b - 4 * a * c in
       if Rlt_dec disc 0 then []
       else [(- b - sqrt disc) / (2 * a); (- b + sqrt disc) / (2 * a)].

(** [_extent_quad], euclidean.py 1192-1208. *)
Definition extent_quad (d : dom) (x p : vec) : num :=
  fold_left (fun alpha q =>
      let Lp := mv (qL q) p in
      let Lxy := mv (qL q) (vsub x (qy q)) in
      let a := dot Lp Lp in
      let b := 2 * dot Lp Lxy in
      let c := dot Lxy Lxy - qrho q * qrho q in
      fold_left (fun al r => if Rleb 0 r then nmin al (Fin r) else al) (real_roots a b c) alpha)
    (quads d) PInf.

(** [_extent]: linquad.py 257-262 ([stol] is self.tol), linineq.py 52-53, box.py 74-75,
    point.py 40-41. *)
Definition extent_ (d : dom) (stol : R) (x p : vec) : num :=
  match dcls d with
  | LinQuad =>
      if (Nat.eqb (length (dAeq d)) 0 || forallb (fun v => Rltb (Rabs v) stol) (mv (dAeq d) p))%bool
      then nmin (nmin (extent_bounds d x p) (extent_ineq d x p)) (extent_quad d x p)
      else Fin 0
  | LinIneq => nmin (extent_bounds d x p) (extent_ineq d x p)
  | Box => extent_bounds d x p
  | Point => Fin 0
  end.

(** [extent], euclidean.py 459-488: None is the AssertionError/ValueError. *)
Definition extent (d : dom) (tol stol : R) (x p : vec) : option num :=
  if inside1 d x tol then Some (extent_ d stol x p) else None.

(* ------------------------------------------------------------------ *)
(** * Box corner *)

(** [BoxDomain._corner], box.py 65-72, on finite bounds: copy lb, overwrite by ub where
    p >= 0; None is EmptyDomainException. *)
Fixpoint box_pick (l u p : vec) : vec :=
  match l, u, p with
  | a :: l', b :: u', c :: p' => (if Rle_dec 0 c then b else a) :: box_pick l' u' p'
  | _, _, _ => []
  end.
Definition box_corner (l u p : vec) (tol : R) : option vec :=
  let x := box_pick l u p in
  if inside1 (mkDom Box (length l) (map Fin l) (map Fin u) [] [] [] [] []) x tol
  then Some x else None.
