(** Model of the projection designs, psdr/sample/projection.py: the Voronoi cells of the projected points, the points
    taken from them and the search loops.  The clauses and the reading of a solution are in SampModel.
    The SAT solver, the methods of the domain object and np.argsort are arguments. *)
Require Import Reals List Bool Arith ZArith.
From Verif Require Import RVec Num DomModel DomMoreModel SampModel SampMoreModel.
Import ListNotations.
Local Open Scope R_scope.

(** inequalities a.x <= b as pairs *)
Notation rows := (list (list R * R)).

(* ------------------------------------------------------------------ *)
(** * Cells of projection_sample *)

(** one inequality, projection.py 99-102: p = 0.5 (X[j] + X[k]), n = X[k] - X[j], the row n^T L^T L and its value at p;
    m is the dimension of the domain *)
Definition ps_row (m : nat) (L : mat) (xj xk : vec) : vec * R :=
  let p := vscale (/ 2) (vadd xj xk) in
  let n := vsub xk xj in
  let a := lincomb m L (mv L n) in
  (a, dot a p).
(** projection.py 96-105 for one point *)
Definition ps_cell (m : nat) (L X : mat) (j : nat) (neigh : list nat) : rows :=
  map (fun k => ps_row m L (nth j X []) (nth k X [])) neigh.

(** l[i] = v on a python list *)
Definition put {A : Type} (i : nat) (v : A) (l : list A) : list A := firstn i l ++ v :: skipn (S i) l.
(** the neighbours of the j-th point in the order I, projection.py 79-85 *)
Definition nb_entry (I : list nat) (N j : nat) : list nat :=
  if Nat.eqb j 0 then [nth 1 I O]
  else if Nat.eqb j (N - 1) then [nth (j - 1) I O]
  else [nth (j - 1) I O; nth (j + 1) I O].
(** projection.py 77-85; None: IndexError for I[j+1] when there is one sample.  (dtype = np.int is ignored.) *)
Definition neighbors_1d (I : list nat) (N : nat) : option (list (list nat)) :=
  if Nat.eqb N 1 then None
  else Some (fold_left (fun nb j => put (nth j I O) (nb_entry I N j) nb) (seq 0 N) (repeat [] N)).
(** projection.py 73-92, with I = argsort(y) the argument; with more than one row the name Delaunay is not defined
    (NameError), so None *)
Definition ps_neighbors (L : mat) (I : list nat) (N : nat) : option (list (list nat)) :=
  if Nat.eqb (length L) 1 then neighbors_1d I N else None.
(** As[i], bs[i], projection.py 95-105 *)
Definition ps_cells (m : nat) (L X : mat) (I : list nat) : option (list rows) :=
  match ps_neighbors L I (length X) with
  | None => None
  | Some nb => Some (map (fun j => ps_cell m L X j (nth j nb [])) (seq 0 (length X)))
  end.
(** the domain with the inequalities added, projection.py 106 and 119-121: domain.add_constraints(A, b) *)
Definition with_rows (d : dom) (c : rows) : dom :=
  add_constraints d (mkDom LinIneq (dim d) (repeat NInf (dim d)) (repeat PInf (dim d)) (map fst c) (map snd c) [] [] []).
(** the inequalities of a combination, projection.py 119-120; [cells] holds As, bs per metric *)
Definition ps_rows (cells : list (list rows)) (idx : list nat) : rows :=
  concat (map (fun i => nth (nth i idx O) (nth i cells []) []) (seq 0 (length cells))).
(** the assertions, projection.py 107-108 *)
Definition ps_asserts (d : dom) (c : rows) (X : mat) (j : nat) (tol : R) : bool :=
  (inside1 (with_rows d c) (nth j X []) tol &&
   Nat.eqb (length (filter (fun x => inside1 (with_rows d c) x tol) X)) 1)%bool.

(** the points of the Latin hypercube variant, projection.py 57-66: c1 = corner(L), c2 = corner(-L), l the only row of L *)
Definition lhs_lo (l c1 c2 : vec) : R := Rmin (dot l c1) (dot l c2).
Definition lhs_hi (l c1 c2 : vec) : R := Rmax (dot l c1) (dot l c2).
Definition lhs_points (l c1 c2 : vec) (N : nat) : mat := map (fun a => vscale a l) (lhs_coords (lhs_lo l c1 c2) (lhs_hi l c1 c2) N).
(** one metric of projection_sample up to the cells, projection.py 57-108.  [X] are the points of this metric.
    None: an exception (IndexError, NameError or AssertionError) *)
Definition ps_metric (d : dom) (L X : mat) (I : list nat) (tol : R) : option (list rows) :=
  match ps_cells (dim d) L X I with
  | None => None
  | Some cs => if forallb (fun j => ps_asserts d (nth j cs []) X j tol) (seq 0 (length X)) then Some cs else None
  end.

(* ------------------------------------------------------------------ *)
(** * Cells of projection_design *)

(** one inequality of _voronoi_cell_point, projection.py 293-296: n = y[k] - y[j], p = 0.5 (y[j] + y[k]), n^T L, n.p *)
Definition vc_row (m : nat) (L : mat) (yj yk : vec) : vec * R :=
  let n := vsub yk yj in
  (lincomb m L n, dot n (vscale (/ 2) (vadd yj yk))).
(** projection.py 290-296 for one metric; M = len(ys[0]) *)
Definition vc_rows1 (m M : nat) (L Y : mat) (j : nat) : rows :=
  flat_map (fun k => if Nat.eqb j k then [] else [vc_row m L (nth j Y []) (nth k Y [])]) (seq 0 M).
(** projection.py 284-299; None: np.vstack of an empty list raises ValueError *)
Definition vc_rows (m : nat) (Ls Ys : list mat) (coord : list nat) : option rows :=
  let M := length (nth 0 Ys []) in
  match flat_map (fun i => vc_rows1 m M (nth i Ls []) (nth i Ys []) (nth i coord O)) (seq 0 (Nat.min (length Ls) (length Ys))) with
  | [] => None
  | r => Some r
  end.
(** the least squares target, projection.py 304 and 128 *)
Definition vc_target (Ys : list mat) (coord : list nat) : vec :=
  concat (map (fun i => nth (nth i coord O) (nth i Ys []) []) (seq 0 (length coord))).

(* ------------------------------------------------------------------ *)
(** * The search loop of projection_sample *)

(** tuple(perms[:,order]) for a solution, projection.py 178-187; the entries are natural numbers for a solution of the clauses *)
Definition comb (K N : nat) (sol : list Z) (o : nat) : list nat := map (fun m => Z.to_nat (perm_of N sol m o)) (seq 0 K).
Definition combs (K N : nat) (sol : list Z) : list (list nat) := map (comb K N sol) (seq 0 N).
(** the new clauses, projection.py 193-198 (and 419-423); [empty c] is subdom.is_empty *)
Definition new_cnf (K N : nat) (empty : list nat -> bool) (sol : list Z) : list (list Z) :=
  flat_map (fun c => block_cnf K N (fun m => nth m c O)) (filter empty (combs K N sol)).
(** encode(metric, k, perms[metric, k]) for the kept samples, projection.py 248-251, 393-394 *)
Definition asm_of (K N : nat) (sol : list Z) (keep : list nat) : list Z :=
  flat_map (fun k => map (fun m => pos_lit (enc N m k (nth m (comb K N sol k) O))) (seq 0 K)) keep.

(** a SAT solver object: number of the call, clauses, solutions already returned (itersolve excludes them), assumptions;
    None: StopIteration *)
Notation solver := (nat -> list (list Z) -> list (list Z) -> list Z -> option (list Z)).

(** [st_next] are the assumptions in force for the next call (they hold for one call), [st_asm] the python variable
    [assumptions] (None: unbound), [st_seen] the solutions returned by the solver, the last one first *)
Record pstate := PS { st_calls : nat; st_cnf : list (list Z); st_seen : list (list Z); st_next : list Z;
  st_asm : option (list Z); st_best : option mat; st_score : vec; st_it : nat }.
Inductive pout := PRunning | PUnbound (s : pstate) | PReturn (s : pstate).

(** the body for a solution, projection.py 177-268.  [design] yields the points of the combinations (206-230), [ord] is
    np.argsort of the negative distances.  inl: continue; inr: the loop is left *)
Definition ps_body (K N maxiter : nat) (empty : list nat -> bool) (design : list (list nat) -> mat) (ord : vec -> list nat)
    (s : pstate) (calls : nat) (sol : list Z) : pstate + pout :=
  let cnf := st_cnf s ++ new_cnf K N empty sol in
  let seen := sol :: st_seen s in
  let finish s' := if Nat.leb maxiter (st_it s') then inr (PReturn s') else inl s' in
  if forallb (fun c => negb (empty c)) (combs K N sol) then
    let X := design (combs K N sol) in
    let it := S (st_it s) in
    if tup_gt (score_maximin X) (st_score s) then
      let a := asm_of K N sol (firstn (N - 2 * K) (ord (min_dists X))) in
      finish (PS calls cnf seen a (Some a) (Some X) (score_maximin X) it)
    else match st_asm s with
         | None => inr (PUnbound (PS calls cnf seen [] None (st_best s) (st_score s) it))
         | Some a => finish (PS calls cnf seen a (Some a) (st_best s) (st_score s) it)
         end
  else finish (PS calls cnf seen [] (st_asm s) (st_best s) (st_score s) (st_it s)).
(** while True, projection.py 162-268: a second call without assumptions when the first one fails *)
Fixpoint ps_loop (fuel K N maxiter : nat) (empty : list nat -> bool) (design : list (list nat) -> mat) (ord : vec -> list nat)
    (solve : solver) (s : pstate) : pout :=
  match fuel with
  | O => PRunning
  | S f =>
      let go calls sol := match ps_body K N maxiter empty design ord s calls sol with
                          | inr o => o
                          | inl s' => ps_loop f K N maxiter empty design ord solve s'
                          end in
      match solve (st_calls s) (st_cnf s) (st_seen s) (st_next s) with
      | Some sol => go (S (st_calls s)) sol
      | None => match solve (S (st_calls s)) (st_cnf s) (st_seen s) [] with
                | Some sol => go (S (S (st_calls s))) sol
                | None => PReturn s
                end
      end
  end.
(** projection.py 134-161 *)
Definition ps_init (K N : nat) : pstate := PS 0 (geo_cnf K N) [] [] None None (repeat 0 N) 0.
Definition ps_run (fuel K N maxiter : nat) (empty : list nat -> bool) (design : list (list nat) -> mat) (ord : vec -> list nat) (solve : solver) : pout :=
  ps_loop fuel K N maxiter empty design ord solve (ps_init K N).

(** the points of the combinations, projection.py 206-230: [pt c] is the constrained least squares point of the cell,
    [fill] says Lall.shape[0] < len(domain); then [smp c x] is a random point of the cell with the same projections, and
    [vv c x Xt xi] is voronoi_vertex_sample in that set.  (The samples are swept at most 100 times.) *)
Definition pf_row (vv : nat -> mat -> vec -> vec) (s : mat * R) (i : nat) : mat * R :=
  let X := fst s in
  let xi := nth i X [] in
  let x := vv i (without i X) xi in
  (set_row i x X, Rmax (snd s) (vmax (map Rabs (vsub xi x)))).
Definition pf_sweep (vv : nat -> mat -> vec -> vec) (N : nat) (X : mat) : mat * R := fold_left (pf_row vv) (seq 0 N) (X, 0).
Fixpoint pf_loop (n : nat) (vv : nat -> mat -> vec -> vec) (N : nat) (X : mat) : mat :=
  match n with
  | O => X
  | S n' => let s := pf_sweep vv N X in if Rltb (snd s) (/ 1000000) then fst s else pf_loop n' vv N (fst s)
  end.
Definition ps_design (fill : bool) (pt : list nat -> vec) (smp : list nat -> vec -> vec) (vv : list nat -> vec -> mat -> vec -> vec)
    (cs : list (list nat)) : mat :=
  let X := map pt cs in
  if fill then
    let N := length cs in
    pf_loop 100 (fun i => vv (nth i cs []) (nth i X [])) N (map (fun c => smp c (pt c)) cs)
  else X.

(* ------------------------------------------------------------------ *)
(** * The search loop of projection_design *)

(** [dt_sol] is the python variable [sol] (None: unbound); [dt_dist] is d_best (None: None) *)
Record dstate := DS { dt_calls : nat; dt_cnf : list (list Z); dt_seen : list (list Z); dt_sol : option (list Z);
  dt_best : option mat; dt_score : vec; dt_dist : option vec; dt_it : nat }.
Inductive dout := DRunning | DUnbound | DReturn (s : dstate).

(** keep_range, projection.py 384-387 *)
Definition keep_range (M : nat) (use : bool) : list nat := if use then rev (seq 0 (Nat.max (M - 1) 1)) else [O].
(** the assumptions for n_keep, projection.py 383, 390-394.  (The code reads [perms], the previous solution, where
    perms_best would be the best one.) *)
Definition pd_asm (K M : nat) (ord : vec -> list nat) (s : dstate) (n : nat) : list Z :=
  match dt_dist s, dt_sol s with
  | Some d, Some sol => asm_of K M sol (firstn n (ord d))
  | _, _ => []
  end.
(** for n_keep in keep_range, projection.py 389-404: number of calls and the first solution found *)
Fixpoint pd_try (K M : nat) (ord : vec -> list nat) (solve : solver) (s : dstate) (calls : nat) (ns : list nat) : nat * option (list Z) :=
  match ns with
  | [] => (calls, None)
  | n :: ns' => match solve calls (dt_cnf s) (dt_seen s) (pd_asm K M ord s n) with
                | Some sol => (S calls, Some sol)
                | None => pd_try K M ord solve s (S calls) ns'
                end
  end.
(** one iteration, projection.py 382-461.  When no call succeeds the previous value of sol is used again.
    [pt c] is the point of _voronoi_cell_point, meaningful when [empty c] is false (EmptyDomainException otherwise) *)
Definition pd_step (K M maxiter : nat) (use : bool) (empty : list nat -> bool) (pt : list nat -> vec) (ord : vec -> list nat)
    (solve : solver) (s : dstate) : dstate + dout :=
  let r := pd_try K M ord solve s (dt_calls s) (keep_range M use) in
  let seen := match snd r with Some sol => sol :: dt_seen s | None => dt_seen s end in
  match (match snd r with Some sol => Some sol | None => dt_sol s end) with
  | None => inr DUnbound
  | Some sol =>
      let cnf := dt_cnf s ++ new_cnf K M empty sol in
      let X := map pt (filter (fun c => negb (empty c)) (combs K M sol)) in
      let s' :=
        if Nat.eqb (length X) M then
          if tup_gt (score_maximin X) (dt_score s)
          then DS (fst r) cnf seen (Some sol) (Some X) (score_maximin X) (Some (min_dists X)) (S (dt_it s))
          else DS (fst r) cnf seen (Some sol) (dt_best s) (dt_score s) (dt_dist s) (S (dt_it s))
        else DS (fst r) cnf seen (Some sol) (dt_best s) (dt_score s) (dt_dist s) (dt_it s) in
      if Nat.leb maxiter (dt_it s') then inr (DReturn s') else inl s'
  end.
Fixpoint pd_loop (fuel K M maxiter : nat) (use : bool) (empty : list nat -> bool) (pt : list nat -> vec) (ord : vec -> list nat)
    (solve : solver) (s : dstate) : dout :=
  match fuel with
  | O => DRunning
  | S f => match pd_step K M maxiter use empty pt ord solve s with
           | inr o => o
           | inl s' => pd_loop f K M maxiter use empty pt ord solve s'
           end
  end.
(** projection.py 350-378 *)
Definition pd_init (K M : nat) : dstate := DS 0 (geo_cnf K M) [] None None (repeat 0 M) None 0.
Definition pd_run (fuel K M maxiter : nat) (use : bool) (empty : list nat -> bool) (pt : list nat -> vec) (ord : vec -> list nat) (solve : solver) : dout :=
  pd_loop fuel K M maxiter use empty pt ord solve (pd_init K M).
