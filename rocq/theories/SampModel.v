(** Model of the sampling routines: psdr/sample/latin.py, poisson.py, maximin.py, minimax.py (1-d),
    maximin_coffeehouse.py, sobol.py, projection.py (SAT encoding).
    Random draws and the methods of the domain object are arguments. *)
Require Import Reals List Bool Arith ZArith.
From Verif Require Import RVec Num DomModel DomMoreModel LipModel.
Import ListNotations.
Local Open Scope R_scope.

(* ------------------------------------------------------------------ *)
(** * Latin hypercubes, latin.py *)

(** [xi = linspace(lb, ub, N+1); (xi[1:] + xi[0:-1])/2], latin.py 41-42 and 90-91 *)
Definition lhs_coords (a b : R) (N : nat) : vec :=
  let xi := linspace a b (N + 1) in map (fun k => (vget xi (S k) + vget xi k) / 2) (seq 0 N).

(** [np.vstack(xs).T] for columns of length N, latin.py 45 *)
Definition rows_of (N : nat) (cols : list vec) : mat := map (fun j => map (fun c => vget c j) cols) (seq 0 N).

(** one column per coordinate, permuted; [perms] holds one index list per coordinate.
    [_latin_hypercube_sample_box] (latin.py 36-45), where np.random.permutation(v) is v indexed by a
    permutation of the indices, and [X = np.array([[xs[i][j] for j in perms[i]] ...]).T] (latin.py 110). *)
Definition lhs_design (l u : vec) (N : nat) (perms : list (list nat)) : mat :=
  rows_of N (map (fun i => map (vget (lhs_coords (vget l i) (vget u i) N)) (nth i perms [])) (seq 0 (length l))).

(** np.sort *)
Fixpoint rins (a : R) (l : vec) : vec := match l with [] => [a] | b :: l' => if Rleb a b then a :: l else b :: rins a l' end.
Definition rsort (l : vec) : vec := fold_right rins [] l.

(** [D = squareform(pdist(X)); D += np.max(D)*np.eye(len(D)); min_dist = np.min(D, axis = 0)],
    latin.py 8-10 and projection.py 236-238 *)
Definition pdists (X : mat) : mat := map (fun x => map (fun y => norm2 (vsub x y)) X) X.
Definition min_dists (X : mat) : vec :=
  let D := pdists X in
  map (fun j => vmin (map (fun i => vget (nth i D []) j + (if Nat.eqb i j then vmax (concat D) else 0)) (seq 0 (length X)))) (seq 0 (length X)).
(** [_score_maximin], latin.py 7-11 *)
Definition score_maximin (X : mat) : vec := rsort (min_dists X).

(** python's [a > b] on tuples *)
Fixpoint tup_gt (a b : vec) : bool :=
  match a, b with
  | x :: a', y :: b' => if Reqb x y then tup_gt a' b' else Rltb y x
  | _ :: _, [] => true
  | _, _ => false
  end.

(** [perms[I,i] = perms_best[I,j]; perms[I,j] = perms_best[I,i]] on one row with I true, latin.py 106-107 *)
Definition swap_row (i j : nat) (row : list nat) : list nat :=
  map (fun k => if Nat.eqb k j then nth i row O else if Nat.eqb k i then nth j row O else nth k row O) (seq 0 (length row)).
(** [I = r >= min(max(r), 0.5)], latin.py 104 *)
Definition swap_mask (r : vec) : list bool := map (fun x => Rleb (Rmin (vmax r) (1 / 2)) x) r.
Definition swap_perms (i j : nat) (r : vec) (perms : list (list nat)) : list (list nat) :=
  map (fun k => if nth k (swap_mask r) false then swap_row i j (nth k perms []) else nth k perms []) (seq 0 (length perms)).

Record lhstate := mkLh { lh_perms : list (list nat); lh_X : option mat; lh_score : vec }.
(** one draw: the two first entries of np.random.permutation(N) and r = np.random.rand(m) *)
Definition draw := (nat * nat * vec)%type.
(** loop body, latin.py 98-117 *)
Definition lh_step (l u : vec) (N : nat) (s : lhstate) (d : draw) : lhstate :=
  let '(i, j, r) := d in
  let perms := swap_perms i j r (lh_perms s) in
  let X := lhs_design l u N perms in
  let score := score_maximin X in
  if tup_gt score (lh_score s) then mkLh perms (Some X) score else s.
(** [_latin_hypercube_maximin_box], latin.py 75-120, for maxiter = length draws.
    Outer None: [i, j = permutation(N)[0:2]] fails to unpack (N < 2); inner None: the value None is returned. *)
Definition lhs_maximin (l u : vec) (N : nat) (perms0 : list (list nat)) (draws : list draw) : option (option mat) :=
  match draws with
  | [] => Some None
  | _ => if Nat.ltb N 2 then None
         else Some (lh_X (fold_left (lh_step l u N) draws (mkLh perms0 None (repeat 0 N))))
  end.

(* ------------------------------------------------------------------ *)
(** * Poisson disk sampling, poisson.py 6-58 *)

(** one trial: direction p, radius ri; [xc = X[i] + ri * p/norm(L p)], accepted if inside and
    [np.min(cdist(L xc, LX)) > r], poisson.py 37-52.  For L p = 0 the point is NaN; the comparison
    with r is then False, so the trial is rejected. *)
Definition poisson_cand (L : mat) (xi : vec) (t : vec * R) : option vec :=
  if Reqb (norm2 (mv L (fst t))) 0 then None
  else Some (vadd xi (vscale (snd t) (vscale (/ norm2 (mv L (fst t))) (fst t)))).
Definition poisson_trial (L : mat) (r : R) (inside : vec -> bool) (X : mat) (xi : vec) (t : vec * R) : option vec :=
  match poisson_cand L xi t with
  | None => None
  | Some xc => if (inside xc && Rltb r (vmin (map (Ldist L xc) X)))%bool then Some xc else None
  end.
(** [for it in range(Ntries): ... break], the first accepted trial *)
Fixpoint first_some {A B : Type} (f : A -> option B) (l : list A) : option B :=
  match l with [] => None | a :: l' => match f a with Some b => Some b | None => first_some f l' end end.

(** indices of the active points, [np.argwhere(active)] *)
Definition active_idx (act : list bool) : list nat := filter (fun i => nth i act false) (seq 0 (length act)).
(** [active[i] = False] *)
Definition clear_at (i : nat) (act : list bool) : list bool :=
  map (fun k => if Nat.eqb k i then false else nth k act false) (seq 0 (length act)).

(** body of the while loop, poisson.py 33-56 *)
Definition poisson_step (L : mat) (r : R) (inside : vec -> bool) (X : mat) (act : list bool) (i : nat) (trials : list (vec * R)) : mat * list bool :=
  match first_some (poisson_trial L r inside X (nth i X [])) trials with
  | Some xc => (X ++ [xc], act ++ [true])
  | None => (X, clear_at i act)
  end.
(** the while loop: [pick k l] is the random choice among the active indices in iteration k, [trials k x] the
    directions and radii drawn there (random_direction may depend on the point x).  None: fuel exhausted. *)
Fixpoint poisson_loop (fuel k : nat) (L : mat) (r : R) (inside : vec -> bool) (pick : nat -> list nat -> nat)
    (trials : nat -> vec -> list (vec * R)) (X : mat) (act : list bool) : option mat :=
  match fuel with
  | O => None
  | S f => match active_idx act with
           | [] => Some X
           | l => let i := pick k l in
                  let s := poisson_step L r inside X act i (trials k (nth i X [])) in
                  poisson_loop f (S k) L r inside pick trials (fst s) (snd s)
           end
  end.
(** [poisson_disk_sample]; x0 = domain.sample() *)
Definition poisson (fuel : nat) (L : mat) (r : R) (inside : vec -> bool) (pick : nat -> list nat -> nat)
    (trials : nat -> vec -> list (vec * R)) (x0 : vec) : option mat :=
  poisson_loop fuel 0 L r inside pick trials [x0] [true].

(** ** grid variant, poisson.py 61-149 *)
(** [int(np.ceil(t))] *)
Definition zceil (t : R) : Z := (- Int_part (- t))%Z.
(** [grid_coord], poisson.py 91-95 *)
Definition grid_coord (L : mat) (start : vec) (h : R) (x : vec) : list Z :=
  map (fun i => Int_part ((vget (mv L x) i - vget start i) / h)) (seq 0 (length L)).
(** the grid: dimensions and the cells written so far (latest first); value 0 elsewhere *)
Definition grid := list (list Z * nat).
Definition zlist_eqb (a b : list Z) : bool := if list_eq_dec Z.eq_dec a b then true else false.
Fixpoint grid_get (g : grid) (idx : list Z) : nat :=
  match g with [] => O | (i, n) :: g' => if zlist_eqb i idx then n else grid_get g' idx end.
Definition in_range (dims idx : list Z) : bool := forallb (fun p => (Z.leb 0 (snd p) && Z.ltb (snd p) (fst p))%bool) (combine dims idx).
(** numpy's treatment of a negative index: -d <= i < 0 counts from the end; otherwise IndexError *)
Definition wrap1 (d i : Z) : option Z :=
  if (Z.leb 0 i && Z.ltb i d)%bool then Some i else if (Z.leb (- d) i && Z.ltb i 0)%bool then Some (i + d)%Z else None.
Fixpoint wrap (dims idx : list Z) : option (list Z) :=
  match dims, idx with
  | d :: ds, i :: is => match wrap1 d i, wrap ds is with Some a, Some r => Some (a :: r) | _, _ => None end
  | [], [] => Some []
  | _, _ => None
  end.
(** [grid[tuple(idx)] = n]; None: IndexError *)
Definition grid_set (dims : list Z) (g : grid) (idx : list Z) (n : nat) : option grid :=
  match wrap dims idx with Some i => Some ((i, n) :: g) | None => None end.
(** [itertools.product] of the ranges j-rad..j+rad, poisson.py 125 *)
Definition zrange (a : Z) (n : nat) : list Z := map (fun k => (a + Z.of_nat k)%Z) (seq 0 n).
Fixpoint cells (rad : nat) (idx : list Z) : list (list Z) :=
  match idx with
  | [] => [[]]
  | j :: idx' => flat_map (fun a => map (cons a) (cells rad idx')) (zrange (j - Z.of_nat rad) (2 * rad + 1))
  end.
(** the centre of the searched block, poisson.py 125.  In [*[(j+k for k in range(...)) for j in idxc]] the generators
    refer to the variable j of the enclosing list comprehension and are consumed only after the comprehension has
    finished, so each of them sees the last value of j: the block is centred at (j_last, ..., j_last), not at idxc. *)
Definition centre (idx : list Z) : list Z := map (fun _ => last idx 0%Z) idx.
(** the neighbours found on the grid, poisson.py 122-132 (indices n-1 into X) *)
Definition neighbors (dims : list Z) (g : grid) (rad : nat) (idx : list Z) : list nat :=
  flat_map (fun c => if in_range dims c then match grid_get g c with O => [] | S n => [n] end else []) (cells rad (centre idx)).
(** [grid_rad = int(2*ceil(sqrt(L.shape[0]))) + 1], poisson.py 124 *)
Definition grid_rad (n : nat) : nat := (Z.to_nat (2 * zceil (sqrt (INR n))) + 1)%nat.
Definition grid_accept (L : mat) (r : R) (dims : list Z) (start : vec) (h : R) (g : grid) (X : mat) (xc : vec) : bool :=
  let nb := neighbors dims g (grid_rad (length L)) (grid_coord L start h xc) in
  let d := match nb with [] => [2 * r] | _ => map (fun n => Ldist L xc (nth n X [])) nb end in
  Rltb r (vmin d).
Definition poisson_grid_trial (L : mat) (r : R) (inside : vec -> bool) (dims : list Z) (start : vec) (h : R) (g : grid) (X : mat) (xi : vec) (t : vec * R) : option vec :=
  match poisson_cand L xi t with
  | None => None
  | Some xc => if (inside xc && grid_accept L r dims start h g X xc)%bool then Some xc else None
  end.
Inductive pres := OutOfFuel | IndexErr | Done (X : mat).
(** the loop of the grid variant, poisson.py 102-147 *)
Fixpoint poisson_grid_loop (fuel k : nat) (L : mat) (r : R) (inside : vec -> bool) (pick : nat -> list nat -> nat)
    (trials : nat -> vec -> list (vec * R)) (dims : list Z) (start : vec) (h : R) (g : grid) (X : mat) (act : list bool) : pres :=
  match fuel with
  | O => OutOfFuel
  | S f => match active_idx act with
           | [] => Done X
           | l => let i := pick k l in
                  match first_some (poisson_grid_trial L r inside dims start h g X (nth i X [])) (trials k (nth i X [])) with
                  | Some xc => match grid_set dims g (grid_coord L start h xc) (length X + 1) with
                               | Some g' => poisson_grid_loop f (S k) L r inside pick trials dims start h g' (X ++ [xc]) (act ++ [true])
                               | None => IndexErr
                               end
                  | None => poisson_grid_loop f (S k) L r inside pick trials dims start h g X (clear_at i act)
                  end
           end
  end.
(** poisson.py 76-88; [corner] is domain.corner *)
Definition grid_h (L : mat) (r : R) : R := r / sqrt (INR (length L)).
Definition grid_lo (corner : vec -> vec) (a : vec) : R := Rmin (dot a (corner a)) (dot a (corner (vscale (-1) a))).
Definition grid_hi (corner : vec -> vec) (a : vec) : R := Rmax (dot a (corner a)) (dot a (corner (vscale (-1) a))).
Definition grid_start (corner : vec -> vec) (L : mat) : vec := map (grid_lo corner) L.
Definition grid_dims (corner : vec -> vec) (L : mat) (r : R) : list Z := map (fun a => zceil ((grid_hi corner a - grid_lo corner a) / grid_h L r)) L.
(** [poisson_disk_sample_grid], x0 = domain.sample() *)
Definition poisson_grid (fuel : nat) (L : mat) (r : R) (inside : vec -> bool) (corner : vec -> vec) (pick : nat -> list nat -> nat)
    (trials : nat -> vec -> list (vec * R)) (x0 : vec) : pres :=
  let start := grid_start corner L in let dims := grid_dims corner L r in let h := grid_h L r in
  match grid_set dims [] (grid_coord L start h x0) 1 with
  | None => IndexErr
  | Some g => poisson_grid_loop fuel 0 L r inside pick trials dims start h g [x0] [true]
  end.

(* ------------------------------------------------------------------ *)
(** * One-dimensional designs *)

(** [minimax_design_1d], minimax.py 455-472, with c1 = corner(L), c2 = corner(-L); None: N = 0 (division by zero) *)
Definition minimax_1d (c1 c2 : vec) (N : nat) : option mat :=
  match N with
  | O => None
  | _ => let h := 1 / INR N in
         Some (map (fun a => vadd (vscale a c1) (vscale (1 - a) c2)) (map (fun k => h / 2 + h * INR k) (seq 0 N)))
  end.
(** [maximin_design_1d], maximin.py 13-27 *)
Definition maximin_1d (c1 c2 : vec) (N : nat) : mat :=
  map (fun a => vadd (vscale a c1) (vscale (1 - a) c2)) (linspace 0 1 N).

(* ------------------------------------------------------------------ *)
(** * Coffeehouse design, maximin_coffeehouse.py 47-67 *)

(** np.argmax: the first index of the largest entry *)
Fixpoint argmax_from (l : vec) (i best : nat) (bv : R) : nat :=
  match l with [] => best | x :: l' => if Rltb bv x then argmax_from l' (S i) i x else argmax_from l' (S i) best bv end.
Definition argmax (l : vec) : nat := match l with [] => O | x :: l' => argmax_from l' 1 O x end.
(** np.argmin *)
Definition argmin_idx (l : vec) : nat := argmax (map Ropp l).

(** [np.min(cdist(Xhat, X, L), axis = 0)] at one point *)
Definition mind (L : mat) (Xhat : mat) (x : vec) : R := vmin (map (fun xh => Ldist L xh x) Xhat).

(** [for j in range(1,N)]: append the candidate farthest from the current points; [verts] is voronoi_vertex or
    voronoi_vertex_sample.  None: no candidates (np.argmax of an empty array). *)
Fixpoint coffee_loop (n : nat) (L : mat) (verts : mat -> mat) (Xhat : mat) : option mat :=
  match n with
  | O => Some Xhat
  | S n' => match verts Xhat with
            | [] => None
            | V => coffee_loop n' L verts (Xhat ++ [nth (argmax (map (mind L Xhat) V)) V []])
            end
  end.
Definition coffeehouse (N : nat) (L : mat) (verts : mat -> mat) (x0 : vec) : option mat := coffee_loop (N - 1) L verts [x0].

(* ------------------------------------------------------------------ *)
(** * Sobol sequence, sobol.py 43-62 *)

(** [(norm_ub - norm_lb)*X_norm + norm_lb] *)
Definition sobol_scale (l u z : vec) : vec := vadd (vmul (vsub u l) z) l.
(** [z k] is the k-th element of the Sobol sequence on the unit cube (i4_sobol_generate(m, n, skip) returns
    elements skip .. skip+n-1).  None: fuel exhausted. *)
Fixpoint sobol_loop (fuel : nat) (l u : vec) (z : nat -> vec) (inside : vec -> bool) (n skip : nat) (acc : mat) : option mat :=
  match fuel with
  | O => None
  | S f => let acc' := acc ++ filter inside (map (fun k => sobol_scale l u (z k)) (seq skip n)) in
           if Nat.leb n (length acc') then Some (firstn n acc') else sobol_loop f l u z inside n (skip + n) acc'
  end.
Definition sobol (fuel : nat) (l u : vec) (z : nat -> vec) (inside : vec -> bool) (n : nat) : option mat :=
  sobol_loop fuel l u z inside n 1 [].

(* ------------------------------------------------------------------ *)
(** * SAT encoding of projection designs, projection.py 111-115, 134-151, 176-201 (same code: 342-346, 350-367, 406-423) *)

(** [encode], projection.py 111-113 *)
Definition enc (N metric order value : nat) : nat := (metric * N * N + order * N + value + 1)%nat.
(** [decode], projection.py 114-115 *)
Definition dec (N idx : nat) : nat * nat * nat :=
  (((idx - 1) / (N * N))%nat, (((idx - 1) mod (N * N)) / N)%nat, ((idx - 1) mod N)%nat).
(** np.triu_indices(N, 1) *)
Definition triu (N : nat) : list (nat * nat) := flat_map (fun i => map (fun j => (i, j)) (seq (S i) (N - S i))) (seq 0 N).
Definition pos_lit (n : nat) : Z := Z.of_nat n.
Definition neg_lit (n : nat) : Z := (- Z.of_nat n)%Z.
(** the clauses of one metric, projection.py 135-148 *)
Definition metric_cnf (N m : nat) : list (list Z) :=
  flat_map (fun o => map (fun v => pos_lit (enc N m o v)) (seq 0 N) ::
                     map (fun p => [neg_lit (enc N m o (fst p)); neg_lit (enc N m o (snd p))]) (triu N)) (seq 0 N)
  ++ flat_map (fun v => map (fun p => [neg_lit (enc N m (fst p) v); neg_lit (enc N m (snd p) v)]) (triu N)) (seq 0 N).
(** [geo_cnf], projection.py 134-151; K = len(Ls) *)
Definition geo_cnf (K N : nat) : list (list Z) :=
  flat_map (metric_cnf N) (seq 0 K) ++ map (fun v => [pos_lit (enc N 0 v v)]) (seq 0 N).
(** blocking clauses for the combination [c] (one value per metric), projection.py 197-198 *)
Definition block_cnf (K N : nat) (c : nat -> nat) : list (list Z) :=
  map (fun o => map (fun m => neg_lit (enc N m o (c m))) (seq 0 K)) (seq 0 N).
(** the permutation array read off a solution (a list of literals), projection.py 177-182: -1 where unset,
    later literals overwrite earlier ones *)
Definition perm_of (N : nat) (sol : list Z) (m o : nat) : Z :=
  fold_left (fun acc l => if Z.ltb 0 l then
      let '(m', o', v) := dec N (Z.to_nat l) in if (Nat.eqb m' m && Nat.eqb o' o)%bool then Z.of_nat v else acc
    else acc) sol (-1)%Z.
