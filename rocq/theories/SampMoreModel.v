(** Model of the remaining sampling routines: psdr/sample/util.py, minimax.py (bisection, clustering, covering),
    maximin.py (block descent), minimax_lloyd.py, minimax_scale.py, initial.py, seqmaximin.py, stretch.py, sample.py.
    Solvers, random draws and the methods of the domain object are arguments. *)
Require Import Reals List Bool Arith ZArith.
From Verif Require Import RVec Num DomModel DomMoreModel LipModel SampModel GeoModel.
Import ListNotations.
Local Open Scope R_scope.

(* ------------------------------------------------------------------ *)
(** * util.py *)

(** [np.argwhere(~np.isclose(s,0)).flatten()], util.py 22 *)
Definition sv_idx (s : vec) : list nat := filter (fun i => negb (np_close (vget s i) 0)) (seq 0 (length s)).
(** [low_rank_L], util.py 6-29; (s, VT) from the SVD, VT given by its rows.  [np.all(I)] looks at the indices
    themselves: it is true if no index is 0. *)
Definition low_rank (L : mat) (s : vec) (VT : mat) : mat :=
  let I := sv_idx s in
  if forallb (fun i => negb (Nat.eqb i 0)) I then L else map (fun i => vscale (vget s i) (nth i VT [])) I.

(* ------------------------------------------------------------------ *)
(** * minimax.py *)

(** the loop of [_int_bisect], minimax.py 49-71.  None: fuel exhausted. *)
Fixpoint bisect_loop (fuel : nat) (f : Z -> R) (n1 n2 : Z) : option Z :=
  match fuel with
  | O => None
  | S fu => let n3 := ((n1 + n2) / 2)%Z in
            let n3 := if Z.eqb n3 n1 then (n3 + 1)%Z else n3 in
            if Z.eqb n3 n2 then Some (if Rltb 0 (f n1) then n1 else n2)
            else if Rltb 0 (f n3 * f n1) then bisect_loop fu f n3 n2 else bisect_loop fu f n1 n3
  end.
Inductive bres := BAssert | BFuel | BVal (n : Z).
(** [_int_bisect], minimax.py 30-71; the function is evaluated at the same point again instead of storing f1, f2
    (it is a pure function here) *)
Definition int_bisect (fuel : nat) (f : Z -> R) (n1 n2 : Z) : bres :=
  if negb (Z.ltb n1 n2) then BAssert
  else if negb (Rltb (f n1 * f n2) 0) then BAssert
  else match bisect_loop fuel f n1 n2 with Some n => BVal n | None => BFuel end.

(** [I = np.argmin(D, axis = 0)] and [dist = np.max(np.min(D, axis = 0))], minimax.py 358-362 *)
Definition assign (L Xhat : mat) (X : mat) : list nat := map (fun x => argmin_idx (map (fun xh => Ldist L xh x) Xhat)) X.
Definition mm_dist (L Xhat X : mat) : R := vmax (map (mind L Xhat) X).
(** [Y[I == i]] *)
Definition cluster_of {A : Type} (I : list nat) (i : nat) (Y : list A) : list A := select (map (Nat.eqb i) I) Y.
(** [dx = np.max(Xhat_new - Xhat)], minimax.py 378: signed differences of all entries *)
Definition move_max (Xnew Xold : mat) : R := vmax (concat (map (fun p => vsub (fst p) (snd p)) (combine Xnew Xold))).
Definition nat_list_eqb (a b : list nat) : bool := if list_eq_dec Nat.eq_dec a b then true else false.
(** the best design so far; None for best_dist = inf *)
Definition mc_best (best : mat * option R) (Xhat : mat) (dist : R) : mat * option R :=
  match snd best with None => (Xhat, Some dist) | Some b => if Rltb dist b then (Xhat, Some dist) else best end.
(** the loop of [minimax_cluster], minimax.py 357-385; n = maxiter - it; [center it Y xhat] is _cq_center_cvxpy *)
Fixpoint mc_loop (n it : nat) (L X : mat) (N : nat) (xtol : R) (center : nat -> mat -> vec -> vec)
    (Xhat : mat) (Iold : list nat) (best : mat * option R) : mat * option R :=
  match n with
  | O => best
  | S n' =>
      let I := assign L Xhat X in
      let best := mc_best best Xhat (mm_dist L Xhat X) in
      if nat_list_eqb Iold I then best
      else let Xnew := map (fun i => center it (cluster_of I i (map (mv L) X)) (nth i Xhat [])) (seq 0 N) in
           if Rltb (move_max Xnew Xhat) xtol then best
           else mc_loop n' (S it) L X N xtol center Xnew I best
  end.
(** [minimax_cluster], minimax.py 344-387; X the discretization, Xhat the initial centres *)
Definition minimax_cluster (maxiter : nat) (L X : mat) (N : nat) (xtol : R) (center : nat -> mat -> vec -> vec) (Xhat : mat) : mat :=
  fst (mc_loop maxiter 0 L X N xtol center Xhat (repeat O (length X)) (Xhat, None)).

(** [constraints = [(D < r) @ I >= 1]], minimax.py 444-446: the number of selected points closer than r, for each point *)
Definition cover_rows (L X : mat) (r : R) (sel : list bool) : list nat :=
  map (fun x => length (filter (fun y => Rltb (Ldist L x y) r) (select sel X))) X.
Definition cover_feasible (L X : mat) (r : R) (sel : list bool) : Prop :=
  length sel = length X /\ Forall (fun c => (1 <= c)%nat) (cover_rows L X r sel).
Definition card (sel : list bool) : nat := length (filter (fun b => b) sel).
(** contract of the 0-1 linear program, minimax.py 448-449 *)
Definition cover_optimal (L X : mat) (r : R) (sel : list bool) : Prop :=
  cover_feasible L X r sel /\ forall sel', cover_feasible L X r sel' -> (card sel <= card sel')%nat.
(** [minimax_covering], minimax.py 389-421: X = poisson_disk_sample(r/4), [ilp X r] the solution of the covering problem *)
Definition minimax_covering (poisson : R -> mat) (ilp : mat -> R -> list bool) (r : R) : mat :=
  let X := poisson (r / 4) in select (ilp X (r / 2)) X.

(* ------------------------------------------------------------------ *)
(** * maximin_block, maximin.py 30-125 *)

(** X[mask] with mask[i] = False, maximin.py 104-105 *)
Definition without {A : Type} (i : nat) (X : list A) : list A := firstn i X ++ skipn (S i) X.
(** X[i] = x *)
Definition set_row (i : nat) (x : vec) (X : mat) : mat := firstn i X ++ x :: skipn (S i) X.
(** norm(L (a - b), inf) *)
Definition move_inf (L : mat) (a b : vec) : R := vmax (map Rabs (mv L (vsub a b))).
(** one row, maximin.py 103-115; [vv Xt x] is voronoi_vertex_sample(domain, Xt, x, L, randomize = False) *)
Definition mb_row (L : mat) (vv : mat -> vec -> vec) (s : mat * R) (i : nat) : mat * R :=
  let X := fst s in
  let xi := nth i X [] in
  let x := vv (without i X) xi in
  (set_row i x X, Rmax (snd s) (move_inf L xi x)).
(** one sweep, maximin.py 101-115 *)
Definition mb_sweep (L : mat) (vv : mat -> vec -> vec) (N : nat) (X : mat) : mat * R := fold_left (mb_row L vv) (seq 0 N) (X, 0).
Fixpoint mb_loop (n : nat) (L : mat) (vv : mat -> vec -> vec) (N : nat) (xtol : R) (X : mat) : mat :=
  match n with
  | O => X
  | S n' => let s := mb_sweep L vv N X in if Rltb (snd s) xtol then fst s else mb_loop n' L vv N xtol (fst s)
  end.
(** [maximin_block]; for one row in L the closed form between c1 = corner(L) and c2 = corner(-L), maximin.py 82-87 *)
Definition maximin_block (maxiter : nat) (L : mat) (c1 c2 : vec) (vv : mat -> vec -> vec) (N : nat) (xtol : R) (X0 : mat) : mat :=
  if Nat.eqb (length L) 1 then map (fun a => vadd (vscale (1 - a) c1) (vscale a c2)) (linspace 0 1 N)
  else mb_loop maxiter L vv N xtol X0.

(* ------------------------------------------------------------------ *)
(** * minimax_lloyd.py *)

(** [I = np.isclose(D[k], d)], [V[I]], minimax_lloyd.py 114-119 *)
Definition owned (L Xhat V : mat) (k : nat) : mat := filter (fun v => np_close (Ldist L (nth k Xhat []) v) (mind L Xhat v)) V.
(** one iteration, minimax_lloyd.py 112-126; [verts] = voronoi_vertex, [cc V] the minimizer over the domain of max_v ||L(x - v)|| *)
Definition lloyd_step (L : mat) (verts : mat -> mat) (cc : mat -> vec) (Xhat : mat) : mat :=
  map (fun k => cc (owned L Xhat (verts Xhat) k)) (seq 0 (length Xhat)).
Definition lloyd_dx (Xnew Xold : mat) : R := vmax (map (fun p => edist (fst p) (snd p)) (combine Xnew Xold)).
(** the loop, minimax_lloyd.py 110-141, [full] variant *)
Fixpoint lloyd (n : nat) (L : mat) (verts : mat -> mat) (cc : mat -> vec) (xtol : R) (Xhat : mat) : mat :=
  match n with
  | O => Xhat
  | S n' => let Xnew := lloyd_step L verts cc Xhat in
            if Rltb (lloyd_dx Xnew Xhat) xtol then Xnew else lloyd n' L verts cc xtol Xnew
  end.

(* ------------------------------------------------------------------ *)
(** * minimax_scale.py *)

(** [scale_design], minimax_scale.py 38-39 *)
Definition scale_design (c : vec) (Xhat : mat) (alpha : R) : mat := map (fun x => vadd (vscale alpha (vsub x c)) c) Xhat.
(** [score_design_full], minimax_scale.py 42-49: the vertices are those of the unscaled design Xhat *)
Definition score_full (L : mat) (verts : mat -> mat) (c : vec) (Xhat : mat) (alpha : R) : R :=
  fill_dist L (scale_design c Xhat alpha) (verts Xhat).
(** [minimax_scale], minimax_scale.py 66-79; [brent] is minimize_scalar started from the bracket (alpha[k-1], alpha[k], alpha[k+1]),
    None if it raises ValueError (no bracket: score at the middle not below both ends) or alpha[k+1] is out of range.  For k = 0 python's alpha[-1]
    is the last entry. *)
Definition minimax_scale (L : mat) (verts : mat -> mat) (c : vec) (Xhat : mat) (npoints : nat) (brent : R * R * R -> option R) : mat :=
  let av := linspace (1 / 2) 1 npoints in
  let sv := map (score_full L verts c Xhat) av in
  let k := argmin_idx sv in
  let ak := vget av k in
  let am := match k with O => last av 0 | S j => vget av j end in
  let alpha := if Nat.ltb (S k) npoints then match brent (am, ak, vget av (S k)) with Some a => a | None => ak end else ak in
  scale_design c Xhat alpha.

(* ------------------------------------------------------------------ *)
(** * initial.py *)

(** [err = norm(L[0,0]*eye - L); isclose(err, 0)], initial.py 39-41 (Frobenius norm) *)
Definition is_scaled_id (m : nat) (L : mat) : bool :=
  if Nat.eqb (length L) m then
    np_close (norm2 (concat (map (fun i => map (fun j => (if Nat.eqb i j then vget (nth 0 L []) 0 else 0) - vget (nth i L []) j) (seq 0 m)) (seq 0 m)))) 0
  else false.
(** [initial_sample], initial.py 37-85.  [sample] = domain.sample(Nsamp), [cs] the corners, [hs pts] = ConvexHullDomain(pts).sample(Nsamp),
    [coef pts y] = ConvexHullDomain(pts).coefficients(y) where pts are the points the domain keeps (convexhull.py 145-146 removes
    duplicates again); Llow = low_rank_L(L).  For Nsamp = 1, Ldom.sample flattens its result (euclidean.py 598-599), so that the loop runs
    over coordinates: not modelled, see DESIGN. *)
Definition init_pts (Llow cs : mat) : mat * mat :=
  let Lcs := map (mv Llow) cs in let mask := unique_mask Lcs in (select mask cs, select mask Lcs).
Definition hull_pts (pts : mat) : mat := select (unique_mask pts) pts.
Definition initial_sample (m : nat) (L Llow : mat) (sample : mat) (cs : mat) (hs : mat -> mat) (coef : mat -> vec -> vec) : mat :=
  if is_scaled_id m L then sample
  else let (cs', Lcs') := init_pts Llow cs in
       let H := hull_pts Lcs' in
       map (fun y => lincomb m cs' (coef H y)) (hs H).

(* ------------------------------------------------------------------ *)
(** * seqmaximin.py *)

(** product of the distances in each metric, seqmaximin.py 173-178 *)
Definition score_Ls (Ls : list mat) (Xhat : mat) (x : vec) : R := fold_left (fun s L => s * mind L Xhat x) Ls 1.
(** the domains: equality constraints L_k x = L_k v added to the original domain, as a list of pairs (k, v);
    [empty cs] is domain_test.is_empty, seqmaximin.py 145-156.  found_idx: the index used for metric k, None for -1. *)
Fixpoint seq_chain (empty : list (nat * vec) -> bool) (order : list nat) (vert : nat -> vec) (cs : list (nat * vec)) : list (nat * vec) :=
  match order with
  | [] => cs
  | k :: order' => let cs' := cs ++ [(k, vert k)] in if empty cs' then cs else seq_chain empty order' vert cs'
  end.
(** the combination of vertices: idx_i gives for each metric the number of the vertex *)
Definition vert_of (vertices : list mat) (idx : list nat) (k : nat) : vec := nth (nth k idx O) (nth k vertices []) [].
(** the loop over candidate domains, seqmaximin.py 136-189: n iterations at most; [order idx] the argsort of the distances,
    [used] the combinations of (metric, index) already tried, [gen it cs] the candidates drawn in the domain with constraints cs.
    Returns the candidates. *)
Definition found_of (cs : list (nat * vec)) (idx : list nat) : list (nat * nat) := map (fun p => (fst p, nth (fst p) idx O)) cs.
Definition incl_pairs (a b : list (nat * nat)) : bool := forallb (fun p => existsb (fun q => (Nat.eqb (fst p) (fst q) && Nat.eqb (snd p) (snd q))%bool) b) a.
Definition same_found (a b : list (nat * nat)) : bool := (incl_pairs a b && incl_pairs b a)%bool.
Fixpoint next_domain (empty : list (nat * vec) -> bool) (order : list nat -> list nat) (vertices : list mat) (used : list (list (nat * nat))) (idx : list (list nat))
    : option (list (nat * vec) * list (nat * nat) * list (list nat)) :=
  match idx with
  | [] => None
  | i :: rest => let cs := seq_chain empty (order i) (vert_of vertices i) [] in
                 let f := found_of cs i in
                 if existsb (same_found f) used then next_domain empty order vertices used rest else Some (cs, f, rest)
  end.
Fixpoint seq_cands (n it : nat) (Ls : list mat) (Xhat : mat) (slack : R) (empty : list (nat * vec) -> bool) (order : list nat -> list nat) (vertices : list mat)
    (gen : nat -> list (nat * vec) -> mat) (used : list (list (nat * nat))) (idx : list (list nat)) (acc : mat) : mat :=
  match n with
  | O => acc
  | S n' => match next_domain empty order vertices used idx with
            | None => acc
            | Some (cs, f, rest) =>
                let new := gen it cs in
                let acc' := acc ++ new in
                if (Rltb (vmax (map (score_Ls Ls Xhat) new)) (slack * vmax (map (score_Ls Ls Xhat) acc')) && Nat.eqb (length cs) (length Ls))%bool then acc'
                else seq_cands n' (S it) Ls Xhat slack empty order vertices gen (used ++ [f]) rest acc'
            end
  end.
(** the selection, seqmaximin.py 193-221.  None: no candidate left (argmax of an empty array). *)
Definition seq_select (Ls : list mat) (Xhat : mat) (slack : R) (Xcan : mat) : option vec :=
  let Xc := select (unique_mask Xcan) Xcan in
  let best := vmax (map (score_Ls Ls Xhat) Xc) in
  let K := filter (fun x => Rleb (best * slack) (score_Ls Ls Xhat x)) Xc in
  match K with [] => None | _ => Some (nth (argmax (map (fun x => vmin (map (edist x) Xhat)) K)) K []) end.
(** [seq_maximin_sample], seqmaximin.py 58-221; for no samples the corner in the direction u = combination of the singular
    vectors with singular value close to the first *)
Definition seq_maximin (Ls : list mat) (Xhat : mat) (slack : R) (corner : vec -> vec) (u : vec) (empty : list (nat * vec) -> bool)
    (order : list nat -> list nat) (vertices : list mat) (idx : list (list nat)) (gen : nat -> list (nat * vec) -> mat) : option vec :=
  match Xhat with
  | [] => Some (corner u)
  | _ => seq_select Ls Xhat slack (seq_cands 100 0 Ls Xhat slack empty order vertices gen [] idx [])
  end.

(* ------------------------------------------------------------------ *)
(** * stretch.py *)

(** [_maximin_block_candidate], stretch.py 10-21, given the vertices found from the starting points; None: SolverError or EmptyDomainException *)
Definition block_candidate (L Xf : mat) (V : option mat) : option (vec * R) :=
  match V with
  | Some ((_ :: _) as V') => let k := argmax (map (mind L Xf) V') in Some (nth k V' [], mind L Xf (nth k V' []))
  | _ => None
  end.
(** the loop over the metrics, stretch.py 46-52.  State: the variable X (overwritten by the candidate) and d (None: not yet assigned).
    Result: outer None if d is used before assignment (UnboundLocalError). *)
Fixpoint stretch_cands (Ls : list mat) (V : mat -> mat -> option mat) (X : mat) (d : option R) : option (list (mat * R * mat) * mat * option R) :=
  match Ls with
  | [] => Some ([], X, d)
  | L :: Ls' => let Xd := match block_candidate L X (V X L) with Some (x, dd) => ([x], Some dd) | None => (X, d) end in
                match snd Xd with
                | None => None
                | Some dv => match stretch_cands Ls' V (fst Xd) (Some dv) with
                             | Some (l, X', d') => Some ((fst Xd, dv, L) :: l, X', d')
                             | None => None
                             end
                end
  end.

(* ------------------------------------------------------------------ *)
(** * sample.py 26-150 *)

(** the state of a Sampler: X and fX (None: not given).  The function values are rows. *)
Record sampler := mkSampler { sp_X : mat; sp_fX : option mat }.
(** [Sampler.__init__], sample.py 38-55; None: AssertionError *)
Definition sampler_init (m : nat) (X : option mat) (fX : option mat) : option sampler :=
  let X' := match X with None => [] | Some X => X end in
  if negb (forallb (fun x => Nat.eqb (length x) m) X') then None
  else match fX with
       | None => Some (mkSampler X' None)
       | Some f => if Nat.eqb (length f) (length X') then Some (mkSampler X' (Some f)) else None
       end.
(** the draws of [SequentialMaximinSampler._sample], sample.py 130-136 *)
Fixpoint draw_loop (n : nat) (next : mat -> vec) (X : mat) : mat :=
  match n with O => [] | S n' => let x := next X in x :: draw_loop n' next (X ++ [x]) end.
(** [SequentialMaximinSampler._sample], sample.py 128-150.  [next] = seq_maximin_sample(domain, ., Ls = [L]); it is None if the name
    is not bound in the module: sample.py does not import it, so the code as it stands is [next = None].  [feval] = fun.eval, row by row.
    Result None: an exception (NameError). *)
Definition sampler_sample (next : option (mat -> vec)) (feval : vec -> vec) (n : nat) (s : sampler) : option sampler :=
  match n, next with
  | S _, None => None
  | _, _ => let new := match next with Some f => draw_loop n f (sp_X s) | None => [] end in
            let fnew := map feval new in
            Some (mkSampler (sp_X s ++ new) (Some (match sp_fX s with None => fnew | Some f => f ++ fnew end)))
  end.
