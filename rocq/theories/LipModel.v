(** Model of psdr/lipschitz.py, lipschitz_utils.py, lipschitz_approx.py, coord.py and the sign fixes of subspace.py.
    Real arithmetic is exact; IEEE specials (type [num]) are kept where they drive the control flow. *)
Require Import Reals List Bool Arith.
From Verif Require Import RVec Num Sums DomMoreModel MatLib.
Import ListNotations.
Local Open Scope R_scope.

(** cdist between L.dot(x) and L.dot(z), lipschitz.py 391-397 *)
Definition Ldist (L : mat) (a b : vec) : R := norm2 (vsub (mv L a) (mv L b)).

(** uncertainty at one test point, lipschitz.py 386-406: the loop over zip(LX, fX).
    [D] is the list of pairs (row of X, value); numpy broadcasting over test points is a map. *)
Definition unc_lb0 (L : mat) (D : list (vec * R)) (x : vec) : num :=
  fold_left (fun lb d => nmax lb (Fin (snd d - Ldist L (fst d) x))) D NInf.
Definition unc_ub0 (L : mat) (D : list (vec * R)) (x : vec) : num :=
  fold_left (fun ub d => nmin ub (Fin (snd d + Ldist L (fst d) x))) D PInf.
Definition unc1 (L : mat) (eps : option R) (D : list (vec * R)) (x : vec) : num * num :=
  match eps with
  | None => (unc_lb0 L D x, unc_ub0 L D x)
  | Some e => (nsub (unc_lb0 L D x) (Fin e), nadd (unc_ub0 L D x) (Fin e))
  end.
Definition uncertainty (L : mat) (eps : option R) (X : mat) (fX : vec) (Xt : mat) : list num * list num :=
  (map (fun x => fst (unc1 L eps (combine X fX) x)) Xt, map (fun x => snd (unc1 L eps (combine X fX) x)) Xt).

(** LipschitzApproximation, lipschitz_approx.py 58-70.  [y]: result of lipschitz_approximation_compatible_data
    (solver, see [compat_spec]); fit sets epsilon = max |y - fX|; eval returns the midpoint. *)
Definition approx_eps (y fX : vec) : R := vmax (map Rabs (vsub y fX)).
Definition approx_eval (L : mat) (X : mat) (fX y : vec) (x : vec) : num :=
  let b := unc1 L (Some (approx_eps y fX)) (combine X y) x in nmul (Fin (/ 2)) (nadd (fst b) (snd b)).
(** constraints of the optimization problem, lipschitz_approx.py 34-38: np.tril_indices(len(X), k=1) is
    taken literally.  NOTE k=1 includes the diagonal AND the first superdiagonal, so pairs j <= i+1 are used. *)
Definition compat_con (L : mat) (X : mat) (y : vec) : Prop :=
  forall i j, (i < length X)%nat -> (j < length X)%nat -> (j <= i + 1)%nat ->
    Rabs (vget y i - vget y j) <= norm2 (mv L (vsub (nth i X []) (nth j X []))).
(** result of prob.solve(): feasible and minimal for the norm [nrm] of y - fX (exact solver) *)
Definition compat_spec (nrm : vec -> R) (L : mat) (X : mat) (fX y : vec) : Prop :=
  length y = length fX /\ compat_con L X y /\
  forall z, length z = length fX -> compat_con L X z -> nrm (vsub y fX) <= nrm (vsub z fX).

(** scale and epsilon passed to _fit, lipschitz.py 141-155 (np.max of an empty list raises ValueError -> 1.) *)
Definition lip_scale (fX : vec) (grads : mat) : R :=
  let s1 := match fX with [] => 1 | _ => vmax fX - vmin fX end in
  let s2 := match grads with [] => 1 | _ => vmax (map norm2 grads) end in
  Rmax s1 s2.
Definition lip_eps (eps : option R) (scale : R) : num :=
  match eps with Some e => ndivr (Fin e) scale | None => Fin 0 end.

(** itertools.combinations(range(n), 2) and np.triu_indices(n, k=1): i < j in lexicographic order *)
Definition pairs (n : nat) : list (nat * nat) :=
  flat_map (fun i => map (fun j => (i, j)) (seq (S i) (n - S i))) (seq 0 n).

(** np.max of a list (None: ValueError on the empty list); NaN propagates *)
Definition npmax (l : list num) : option num := match l with [] => None | a :: l' => Some (fold_left nmax l' a) end.
(** Python's max(a, b): b only if b > a *)
Definition pymax (a b : num) : num := if nltb a b then b else a.

(** LipschitzConstant.fit, lipschitz.py 138-157 and 620-632: note that epsilon is divided by the scale but fX is not. *)
Definition lc_ratios (X : mat) (fX : vec) (eps : num) : list num :=
  map (fun ij => ndivr (nsub (Fin (Rabs (vget fX (fst ij) - vget fX (snd ij)))) eps)
                       (norm2 (vsub (nth (fst ij) X []) (nth (snd ij) X [])))) (pairs (length X)).
Definition lc_fit (eps : option R) (X : mat) (fX : vec) (grads : mat) : option num :=
  let e := lip_eps eps (lip_scale fX grads) in
  let L1 := match X with [] => Some (Fin 0) | _ =>
              match npmax (lc_ratios X fX e) with None => None | Some s => Some (pymax (Fin 0) s) end end in
  match L1 with None => None | Some l1 =>
    match grads with [] => Some l1 | _ => Some (pymax l1 (Fin (vmax (map norm2 grads)))) end end.

(** dist_eval_constraints, lipschitz_utils.py 21-49 *)
Definition dist_eval (H : mat) (X : mat) (fX : vec) : list num :=
  map (fun ij => let p := vsub (nth (fst ij) X []) (nth (snd ij) X []) in
                 let df := vget fX (fst ij) - vget fX (snd ij) in
                 ndivr (Fin (quad H p - df * df)) (dot p p)) (pairs (length X)).

(** np.argmax: first NaN if there is one, otherwise first largest entry; None: ValueError on the empty array *)
Fixpoint argmax_from (k : nat) (best : nat) (bv : num) (l : list num) : nat :=
  match l with
  | [] => best
  | a :: l' => match bv with
               | NaN => best
               | _ => match a with
                      | NaN => k
                      | _ => if nltb bv a then argmax_from (S k) k a l' else argmax_from (S k) best bv l'
                      end
               end
  end.
Definition argmax (l : list num) : option nat := match l with [] => None | a :: l' => Some (argmax_from 1 0 a l') end.

(** project_evals, lipschitz_utils.py 151-181.  Outcomes: exception, matrix full of NaN (an update by inf times an outer
    product of zero vectors makes H NaN, after which the loop stops), or a matrix. *)
Inductive outcome := Raised | AllNaN | Ret (H : mat) | Running (H : mat).
Definition pe_updates (H : mat) (X : mat) (fX : vec) : list num :=
  map (fun ij => let p := vsub (nth (fst ij) X []) (nth (snd ij) X []) in
                 let df := vget fX (fst ij) - vget fX (snd ij) in
                 ndivr (Fin (df * df - quad H p)) (dot p p * dot p p)) (pairs (length X)).
Definition pe_tol : R := / 10 ^ 13.
Definition pe_step (X : mat) (fX : vec) (H : mat) : outcome :=
  let u := pe_updates H X fX in
  match argmax u with
  | None => Raised
  | Some k =>
      if nltb (Fin pe_tol) (nth k u NaN) then
        let ij := nth k (pairs (length X)) (O, O) in
        let p := vsub (nth (fst ij) X []) (nth (snd ij) X []) in
        match nth k u NaN with
        | Fin c => Running (madd H (mscale c (outer p p)))
        | _ => AllNaN
        end
      else Ret H
  end.
Fixpoint pe_loop (fuel : nat) (X : mat) (fX : vec) (H : mat) : outcome :=
  match fuel with
  | O => Running H
  | S n => match pe_step X fX H with Running H' => pe_loop n X fX H' | o => o end
  end.
Definition project_evals (fuel : nat) (H : mat) (X : mat) (fX : vec) : outcome :=
  match X with [] => Ret H | _ => pe_loop fuel X fX H end.

(** project_grads, lipschitz_utils.py 184-211.  [dist]: dist_grad_constraints on one gradient (None: it raised);
    [eigh]: numpy.linalg.eigh, eigenvectors by columns.  np.nanargmin over finite values: first smallest. *)
Fixpoint argmin_from (k best : nat) (bv : R) (l : vec) : nat :=
  match l with [] => best | a :: l' => if Rltb a bv then argmin_from (S k) k a l' else argmin_from (S k) best bv l' end.
Definition argmin (l : vec) : nat := match l with [] => O | a :: l' => argmin_from 1 0 a l' end.
Definition pg_update (eigh : mat -> vec * list vec) (H : mat) (g : vec) : mat :=
  let e := eigh (msub H (outer g g)) in
  madd (outer g g) (spec (length g) (map (Rmax 0) (fst e)) (snd e)).
Fixpoint all_some {A} (l : list (option A)) : option (list A) :=
  match l with [] => Some [] | Some a :: l' => option_map (cons a) (all_some l') | None :: _ => None end.
Definition pg_step (dist : mat -> vec -> option R) (eigh : mat -> vec * list vec) (grads : mat) (H : mat) : outcome :=
  match all_some (map (dist H) grads) with
  | None => Raised
  | Some d => let k := argmin d in
              if Rleb 0 (vget d k) then Ret H else Running (pg_update eigh H (nth k grads []))
  end.
Fixpoint pg_loop (fuel : nat) (dist : mat -> vec -> option R) (eigh : mat -> vec * list vec) (grads : mat) (H : mat) : outcome :=
  match fuel with
  | O => Running H
  | S n => match pg_step dist eigh grads H with Running H' => pg_loop n dist eigh grads H' | o => o end
  end.
Definition project_grads (fuel : nat) (dist : mat -> vec -> option R) (eigh : mat -> vec * list vec) (H : mat) (grads : mat) : outcome :=
  match grads with [] => Ret H | _ => pg_loop fuel dist eigh grads H end.

(** dist_grad_constraints_slow on one gradient, lipschitz_utils.py 71-105.  [ew],[us]: eigh(-H), ascending;
    [feps]: np.finfo(np.float64).eps; [brenth f a b]: scipy.optimize.brenth (None: ValueError, same signs).
    The secular function is evaluated with IEEE division (a zero denominator gives an infinity). *)
Definition secular (ew : vec) (ug2 : vec) (lam : R) : num :=
  nadd (Fin 1) (nsum (zipw (fun a b => ndivr (Fin a) (b - lam)) ug2 ew)).
Definition dg_left (feps : R) (ew : vec) : R := last ew 0 * (1 - feps).
Definition dg_right (ew ug2 : vec) : R := last ew 0 + vsum ug2.
Definition dist_grad_slow (brenth : (R -> num) -> R -> R -> option R) (eigh : mat -> vec * list vec) (feps : R) (H : mat) (g : vec) : option R :=
  let e := eigh (mscale (-1) H) in
  let ug2 := map (fun u => dot u g * dot u g) (snd e) in
  option_map Ropp (brenth (secular (fst e) ug2) (dg_left feps (fst e)) (dg_right (fst e) ug2)).

(** np.sign *)
Definition sgn (x : R) : R := if Rltb 0 x then 1 else if Rltb x 0 then -1 else 0.
(** U given by its columns; U.dot(np.diag(s)) scales them *)
Definition scale_cols (s : vec) (us : list vec) : list vec := zipw vscale s us.
(** _fix_subspace_signs_grads, subspace.py 276-277: np.sign(np.mean(grads.dot(U), axis = 0)) *)
Definition signs_grads (us : list vec) (grads : mat) : vec :=
  map (fun u => sgn (vsum (map (fun g => dot g u) grads) / INR (length grads))) us.
(** _fix_subspace_signs_samps, subspace.py 262-274 *)
Definition slope_sum (u : vec) (X : mat) (fX : vec) : R :=
  vsum (map (fun ij => let d := dot u (vsub (nth (fst ij) X []) (nth (snd ij) X [])) in
                       if Rltb 0 (Rabs d) then (vget fX (fst ij) - vget fX (snd ij)) / d else 0) (pairs (length X))).
Definition signs_samps (us : list vec) (X : mat) (fX : vec) : vec :=
  map (fun u => let s := slope_sum u X fX in sgn (if Reqb s 0 then 1 else s)) us.
(** _fix_subspace_signs, subspace.py 250-260 *)
Definition fix_signs (us : list vec) (X : mat) (fX : vec) (grads : mat) : list vec :=
  scale_cols (match grads with [] => signs_samps us X fX | _ => signs_grads us grads end) us.

(** LipschitzMatrix._fit, lipschitz.py 160-179.  [H]: result of _build_lipschitz_matrix on the scaled data;
    [ew],[us]: eigh(H), reversed (U[:,::-1], ew[::-1]).  Returns (U, H, L). *)
Definition lm_fit (eigh : mat -> vec * list vec) (H : mat) (X : mat) (fX : vec) (grads : mat) (scale : R) : list vec * mat * mat :=
  let m := length H in
  let ew := rev (fst (eigh H)) in
  let us := fix_signs (rev (snd (eigh H))) X (vscale (/ scale) fX) (map (vscale (/ scale)) grads) in
  (us, mscale (scale ^ 2) (spec m (map (fun w => Rmax w 0) ew) us), mscale scale (spec m (map (fun w => sqrt (Rmax w 0)) ew) us)).

(** DiagonalLipschitzMatrix._fit, lipschitz.py 599-608: [h] = diagonal of the builder's result.  Returns diagonals of H, L. *)
Definition dlm_fit (h : vec) (scale : R) : vec * vec :=
  let h' := map (fun a => Rmax a 0) h in (vscale (scale ^ 2) h', vscale scale (map sqrt h')).

(** the basis of symmetric matrices, lipschitz.py 239-246 and 286-300 *)
Definition unitv (m i : nat) : vec := map (fun j => if Nat.eqb j i then 1 else 0) (seq 0 m).
Definition sdp_basis (full : bool) (m : nat) : list mat :=
  flat_map (fun i => outer (unitv m i) (unitv m i) ::
    (if full then map (fun j => mscale (/ 2) (outer (vadd (unitv m i) (unitv m j)) (vadd (unitv m i) (unitv m j)))) (seq (S i) (m - S i)) else []))
    (seq 0 m).
(** np.sum([alpha_i * Ei ...], axis = 0), lipschitz.py 278, 351 *)
Fixpoint mcomb (m : nat) (al : vec) (Es : list mat) : mat :=
  match al, Es with a :: al', E :: Es' => madd (mscale a E) (mcomb m al' Es') | _, _ => mzero m m end.
Definition trace (A : mat) : R := rsum (length A) (fun i => mget A i i).
(** constraints of the cvxopt program on alpha, lipschitz.py 311-337: one row per pair with |df| > epsilon (normalized by
    |p|), H >= 0, and H - g g^T >= 0 in the cone of positive semidefinite matrices *)
Definition psd (m : nat) (A : mat) : Prop := forall x, length x = m -> 0 <= quad A x.
Definition sdp_row (Es : list mat) (p : vec) : vec := map (fun E => - quad E (vscale (/ norm2 p) p)) Es.
Definition sdp_feasible (m : nat) (Es : list mat) (X : mat) (fX : vec) (grads : mat) (eps : R) (al : vec) : Prop :=
  (forall i j, (i < j < length X)%nat -> eps < Rabs (vget fX i - vget fX j) ->
     let p := vsub (nth i X []) (nth j X []) in
     dot (sdp_row Es p) al <= - (Rmax (Rabs (vget fX i - vget fX j) - eps) 0) ^ 2 / (norm2 p) ^ 2)
  /\ psd m (mcomb m al Es)
  /\ (forall g, In g grads -> psd m (msub (mcomb m al Es) (outer g g))).

(** CoordinateBasedDimensionReduction.U, coord.py 38-46, as a state machine: [c_score] is set by fit, [c_U] caches U. *)
Record coord := mkCoord { c_score : option vec; c_U : option (list vec) }.
(** DiagonalLipschitzMatrix.__init__ / LipschitzMatrix.__init__: _U = None, no _score attribute (even if L is given) *)
Definition coord_init : coord := mkCoord None None.
(** fit, lipschitz.py 599-608: sets _score, leaves _U alone *)
Definition coord_fit (s : vec) (c : coord) : coord := mkCoord (Some s) (c_U c).
(** U: [argsort] is np.argsort (of -score); columns e_{k} in that order.  None: AttributeError (no _score). *)
Definition coord_U (argsort : vec -> list nat) (c : coord) : option (list vec) * coord :=
  match c_U c with
  | Some U => (Some U, c)
  | None => match c_score c with
            | None => (None, c)
            | Some s => let U := map (unitv (length s)) (argsort (vscale (-1) s)) in (Some U, mkCoord (Some s) (Some U))
            end
  end.

(** LowerBound / UpperBound, lipschitz.py 647-686.  Y = L X^T; gradient rows with zero distance are zero. *)
Definition lowerb (L : mat) (D : list (vec * R)) (x : vec) : vec := map (fun d => snd d - norm2 (vsub (mv L x) (mv L (fst d)))) D.
Definition upperb (L : mat) (D : list (vec * R)) (x : vec) : vec := map (fun d => - (snd d + norm2 (vsub (mv L x) (mv L (fst d))))) D.
(** L^T v, m columns *)
Definition mtv (m : nat) (L : mat) (v : vec) : vec := lincomb m L v.
Definition bound_grad (m : nat) (L : mat) (D : list (vec * R)) (x : vec) : mat :=
  map (fun d => let w := vsub (mv L x) (mv L (fst d)) in
       if Rltb 0 (norm2 w) then mtv m L (vscale (- / norm2 w) w) else mtv m L (vzero (length L))) D.

(** uncertainty_domain, lipschitz.py 446-477: [X0] the starting points, [mmx f x0] the point returned by
    psdr.minimax on [f] started at [x0] over the domain.  None: np.min of an empty list raises. *)
Definition unc_domain (mmx : (vec -> vec) -> vec -> vec) (L : mat) (D : list (vec * R)) (X0 : mat) : option (R * R) :=
  match X0 with [] => None | _ =>
    Some (vmin (map (fun x0 => vmax (lowerb L D (mmx (lowerb L D) x0))) X0),
          vmax (map (fun x0 => vmin (vscale (-1) (upperb L D (mmx (upperb L D) x0)))) X0)) end.

(** ** PartialLipschitzMatrix, lipschitz_partial.py.  U is given by its columns [us], so U^T y is [mv us y]. *)
Definition meye (m : nat) : mat := map (unitv m) (seq 0 m).
(** U J U^T + alpha (I - U U^T), lipschitz_partial.py 107-115, for diagonal J = diag(w), which is what _fit leaves *)
Definition pl_H (m : nat) (us : list vec) (w : vec) (alpha : R) : mat :=
  madd (spec m w us) (mscale alpha (msub (meye m) (spec m (repeat 1 (length us)) us))).
(** L, lipschitz_partial.py 117-122; [q]: columns of Q from np.linalg.qr(U, mode='complete').  np.sqrt of a negative entry
    is NaN in the code and 0 here. *)
Definition pl_L (m : nat) (q : list vec) (w : vec) (alpha : R) : mat :=
  spec m (map sqrt (w ++ repeat alpha (m - length w))) q.
(** U J U^T + alpha (I - U U^T) as a quadratic form: the right hand sides in _fixed_U, lipschitz_partial.py 166, 174 *)
Definition pl_rhs (us : list vec) (J : mat) (alpha : R) (y : vec) : R :=
  quad J (mv us y) + alpha * (dot y y - dot (mv us y) (mv us y)).
(** constraints of the program solved by _fixed_U, lipschitz_partial.py 152-175 *)
Definition pl_feasible (m : nat) (us : list vec) (X : mat) (fX : vec) (grads : mat) (eps : R) (J : mat) (alpha : R) : Prop :=
  sq (length us) J /\ msym (length us) J /\ psd (length us) J /\ 0 <= alpha /\ (m = length us -> alpha = 0) /\
  (forall i j, (i < j < length X)%nat -> let y := vsub (nth i X []) (nth j X []) in
     (Rabs (vget fX i - vget fX j) - eps) ^ 2 <= pl_rhs us J alpha y) /\
  (forall g, In g grads -> forall x, length x = m -> dot g x * dot g x <= pl_rhs us J alpha x).
(** objective, lipschitz_partial.py 150, 243, 269 *)
Definition pl_obj (m r : nat) (Ja : mat * R) : R := trace (fst Ja) + (INR m - INR r) * snd Ja.
(** _fit after the optimization, lipschitz_partial.py 84-105: (U, diagonal of J, alpha) *)
Definition pl_fit (eigh : mat -> vec * list vec) (m : nat) (us : list vec) (J : mat) (alpha : R) (X : mat) (fX : vec) (grads : mat) (scale : R) : list vec * vec * R :=
  let e := eigh J in
  (fix_signs (map (lincomb m us) (rev (snd e))) X (vscale (/ scale) fX) (map (vscale (/ scale)) grads),
   vscale (scale ^ 2) (rev (fst e)), scale ^ 2 * alpha).
(** U Z cos(s t) + Y sin(s t), columns; [zs]: rows of ZT *)
Definition geo_cols (m : nat) (us ys : list vec) (s : vec) (zs : list vec) (t : R) : list vec :=
  map (fun k => vadd (vscale (cos (vget s k * t)) (lincomb m us (nth k zs []))) (vscale (sin (vget s k * t)) (nth k ys []))) (seq 0 (length us)).
(** the new subspace, lipschitz_partial.py 266: (U Z cos + Y sin) ZT *)
Definition pl_geo (m : nat) (us ys : list vec) (s : vec) (zs : list vec) (t : R) : list vec :=
  map (fun c => lincomb m (geo_cols m us ys s zs t) (col zs c)) (seq 0 (length us)).
(** the line search, lipschitz_partial.py 265-272; [step t]: U_new; [fixedU]: _fixed_U *)
Fixpoint pl_search (n : nat) (step : R -> list vec) (fixedU : list vec -> mat * R) (ob : mat * R -> R) (obj t : R) (last : list vec * (mat * R)) : list vec * (mat * R) :=
  match n with
  | O => last
  | S n' => let U := step t in let Ja := fixedU U in
            if Rltb (ob Ja) obj then (U, Ja) else pl_search n' step fixedU ob obj (t / 10) (U, Ja)
  end.
(** _optimize, lipschitz_partial.py 238-306.  [descent]: _U_descent (None: ValueError); [small]: norm(dU) < tol_dx;
    [step U dU t] the point on the geodesic. *)
Fixpoint pl_loop {D : Type} (n : nat) (descent : list vec -> mat * R -> option D) (small : D -> bool) (step : list vec -> D -> R -> list vec)
  (fixedU : list vec -> mat * R) (ob : mat * R -> R) (tol : R) (U : list vec) (Ja : mat * R) (obj : R) : option (list vec * (mat * R)) :=
  match n with
  | O => Some (U, Ja)
  | S n' =>
      match descent U Ja with
      | None => None
      | Some dU =>
          if small dU then Some (U, Ja) else
          let r := pl_search 10 (step U dU) fixedU ob obj 1 (U, Ja) in
          let on := ob (snd r) in
          if Rltb obj on then Some (U, Ja)
          else if Rltb obj (on + tol) then Some r
          else pl_loop n' descent small step fixedU ob tol (fst r) (snd r) on
      end
  end.
Definition pl_optimize {D : Type} (maxiter : nat) (descent : list vec -> mat * R -> option D) (small : D -> bool) (step : list vec -> D -> R -> list vec)
  (fixedU : list vec -> mat * R) (ob : mat * R -> R) (tol : R) (U0 : list vec) : option (list vec * (mat * R)) :=
  pl_loop maxiter descent small step fixedU ob tol U0 (fixedU U0) (ob (fixedU U0)).
(** first order term of the sample constraint in _U_descent, lipschitz_partial.py 214-218: [ups], [Jp], [alphap] the step.
    The code multiplies -2 alpha by J U^T y where the derivative of -alpha |U^T y|^2 has U^T y. *)
Definition pl_lin (us : list vec) (J : mat) (alpha : R) (ups : list vec) (Jp : mat) (alphap : R) (y : vec) : R :=
  let a := mv us y in let b := mv ups y in
  2 * dot (mv J a) b + quad Jp a + (-2 * alpha * dot b (mv J a) + alphap * (dot y y - dot a a)).
(** and of the gradient constraint, lipschitz_partial.py 220-232, as a quadratic form in [x] *)
Definition pl_lin_grad (us : list vec) (J : mat) (alpha : R) (ups : list vec) (Jp : mat) (alphap : R) (x : vec) : R :=
  let a := mv us x in let b := mv ups x in
  quad Jp a + (dot b (mv J a) + dot b (mv J a)) - alpha * (dot b a + dot b a) + alphap * (dot x x - dot a a).
