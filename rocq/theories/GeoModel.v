(** Model of psdr/geometry: unique points, simplex and sphere sampling, Voronoi vertices, fill distance. *)
Require Import Reals List Bool Arith ZArith.
From Verif Require Import RVec Num DomModel DomMoreModel LipModel SampModel.
Import ListNotations.
Local Open Scope R_scope.

(** np.isclose(a, b): |a - b| <= atol + rtol |b| with the default atol = 1e-8, rtol = 1e-5 *)
Definition atol : R := / 100000000.
Definition rtol : R := / 100000.
Definition np_close (a b : R) : bool := Rleb (Rabs (a - b)) (atol + rtol * Rabs b).
Definition edist (x y : vec) : R := norm2 (vsub x y).

(* ------------------------------------------------------------------ *)
(** * geometry.py *)

(** [unique_points], geometry.py 52-69: I[i] = ~isclose(min(D[i,i+1:]), 0) for all but the last point.
    (For no points at all, pdist raises; here the empty list.) *)
Fixpoint unique_mask (X : mat) : list bool :=
  match X with
  | [] => []
  | x :: X' => match X' with [] => true | _ => negb (np_close (vmin (map (edist x) X')) 0) end :: unique_mask X'
  end.
(** X[I] for a boolean mask *)
Fixpoint select {A : Type} (mask : list bool) (X : list A) : list A :=
  match mask, X with b :: m', x :: X' => if b then x :: select m' X' else select m' X' | _, _ => [] end.

(** one row of [sample_simplex], geometry.py 72-86: [r] are the dim+1 uniform numbers; the first becomes 0, the last 1
    (for a single number the last assignment wins), sorted, differences. *)
Definition simplex_ends (r : vec) : vec :=
  match r with [] => [] | [_] => [1] | _ :: r' => 0 :: removelast r' ++ [1] end.
Fixpoint diffs (r : vec) : vec := match r with a :: ((b :: _) as r') => (b - a) :: diffs r' | _ => [] end.
Definition simplex_row (r : vec) : vec := diffs (rsort (simplex_ends r)).

(** [x/np.linalg.norm(x)]; None: 0/0 *)
Definition normalize_vec (x : vec) : option vec := if Reqb (norm2 x) 0 then None else Some (vscale (/ norm2 x) x).
Fixpoint all_some {A : Type} (l : list (option A)) : option (list A) :=
  match l with [] => Some [] | None :: _ => None | Some a :: l' => match all_some l' with Some r => Some (a :: r) | None => None end end.
(** [sample_sphere], geometry.py 32-50: [x0] the first draw, [cands] the k draws of each later iteration.
    None: a zero draw, or k = 0 (argmax of an empty array). *)
Fixpoint sphere_loop (cands : list mat) (X : mat) : option mat :=
  match cands with
  | [] => Some X
  | C :: cs => match all_some (map normalize_vec C) with
               | Some (c :: Cn) => let V := c :: Cn in
                   sphere_loop cs (X ++ [nth (argmax (map (fun y => vmin (map (fun x => 1 - dot x y) X)) V)) V []])
               | _ => None
               end
  end.
Definition sample_sphere (x0 : vec) (cands : list mat) : option mat :=
  match normalize_vec x0 with Some x => sphere_loop cands [x] | None => None end.

(* ------------------------------------------------------------------ *)
(** * vertex.py *)

(** midpoints of consecutive entries *)
Fixpoint mids (X : vec) : vec := match X with a :: ((b :: _) as X') => (1/2) * (b + a) :: mids X' | _ => [] end.
(** [voronoi_vertex_1d], vertex.py 20-36; lb, ub from domain.corner, sites Xhat.flatten() *)
Definition vor1d (lb ub : R) (sites : vec) : vec := lb :: mids (rsort (sites ++ [ub; lb])) ++ [ub].
Definition vverts1 (lb ub : R) (Xhat : mat) : mat := map (fun v => [v]) (vor1d lb ub (map (fun x => vget x 0) Xhat)).

(** the half spaces of cell k in the coordinates y = L x, vertex.py 72-84: rows Y_j - Y_k with right hand sides
    (Y_j - Y_k).(Y_k + Y_j)/2, zero rows removed *)
Definition cell_rows (Y : mat) (k : nat) : list (vec * R) :=
  let yk := nth k Y [] in
  filter (fun p => Rltb 0 (norm2sq (fst p)))
    (map (fun y => (vsub y yk, dot (vsub y yk) (vscale (1/2) (vadd yk y)))) Y).
(** [A @ Linv] row by row: a^T Linv, that is sum_i a_i Linv[i] *)
Definition row_times (m : nat) (a : vec) (Linv : mat) : vec := lincomb m Linv a.
(** [voronoi_vertex] for len(domain) > 1 before the unique/isinside filters, vertex.py 52-113.
    [hsi rows] is qhull's list of the vertices of {y : a.y <= c for (a,c) in rows} (with an interior point
    supplied as in 67-106); m = dimension, L square with inverse Linv. *)
Definition vor_all (m : nat) (A : mat) (b : vec) (L Linv : mat) (hsi : list (vec * R) -> mat) (Xhat : mat) : mat :=
  match Xhat with
  | [_] => hsi (combine A b)
  | _ => let Y := map (mv L) Xhat in
         map (mv Linv) (flat_map (fun k => hsi (combine (map (fun a => row_times m a Linv) A) b ++ cell_rows Y k)) (seq 0 (length Xhat)))
  end.
(** vertex.py 113-119: unique points, then those inside the domain.  With a single site (vertex.py 67-70) the vertices are returned unfiltered. *)
Definition voronoi_vertex (m : nat) (A : mat) (b : vec) (L Linv : mat) (hsi : list (vec * R) -> mat) (inside : vec -> bool) (Xhat : mat) : mat :=
  match Xhat with
  | [_] => vor_all m A b L Linv hsi Xhat
  | _ => let V := vor_all m A b L Linv hsi Xhat in filter inside (select (unique_mask V) V)
  end.
(** [fill_distance], fill.py 27-29 *)
Definition fill_dist (L : mat) (Xhat V : mat) : R := vmax (map (mind L Xhat) V).

(** ** voronoi_vertex_sample, vertex.py 121-314, one row of X0 (rows do not interact) *)
(** LTL h *)
Definition ltl (m : nat) (L : mat) (h : vec) : vec := lincomb m L (mv L h).
(** the j-th nearest site, Xhat[I[i,j]]; ord = argsort of the distances *)
Definition site (Xhat : mat) (ord : list nat) (j : nat) : vec := nth (nth j ord O) Xhat [].
(** columns of [nullspace] in iteration k, vertex.py 231-244 *)
Definition vv_null (m : nat) (L A : mat) (b : vec) (Aeq Xhat : mat) (ord : list nat) (k : nat) (x0 : vec) : mat :=
  Aeq ++ map fst (filter (fun p => np_close (dot (fst p) x0) (snd p)) (combine A b))
  ++ map (fun j => ltl m L (vsub (site Xhat ord 0) (site Xhat ord j)))
         (filter (fun j => np_close (Ldist L x0 (site Xhat ord 0)) (Ldist L x0 (site Xhat ord j))) (seq 1 (Nat.min (k + 1) (length Xhat) - 1))).
(** the search direction, vertex.py 223-224, 245-256; [qr] gives the columns of Q, [g] the random direction *)
Definition vv_dir (m : nat) (L : mat) (qr : mat -> mat) (randomize : bool) (ns : mat) (g x0 xh : vec) : vec :=
  let h := ltl m L (vsub x0 xh) in
  match ns with
  | [] => h
  | _ => let h1 := proj_out (qr ns) h in if (np_close (norm2 h1) 0 && randomize)%bool then proj_out (qr ns) g else h1
  end.
(** step to the plane separating the nearest site xh from xhat, vertex.py 263-285; None: np.inf *)
Definition site_alpha (L : mat) (x0 xh h xhat : vec) : option R :=
  let p0 := vscale (1/2) (mv L (vadd xhat xh)) in
  let n := mv L (vsub xhat xh) in
  let nh := dot n (mv L h) in
  let num := - dot (vsub (mv L x0) p0) n in
  if np_close (Rabs nh) 0 then None else if Rltb (num / nh) 0 then None else Some (num / nh).
(** step to a face of the domain, vertex.py 287-294 *)
Definition face_alpha (x0 h : vec) (p : vec * R) : option R :=
  let ah := dot (fst p) h in
  if Reqb ah 0 then None else let t := (snd p - dot (fst p) x0) / ah in if Rleb t 0 then None else Some t.
Definition omin (a b : option R) : option R :=
  match a, b with None, b => b | a, None => a | Some x, Some y => Some (Rmin x y) end.
Definition omin_list (l : list (option R)) : option R := fold_right omin None l.
Definition small_dir (h : vec) : bool := Rltb (vmax (map Rabs h)) (/ 10000000000).
(** the step length, vertex.py 263-304 (A nonempty: np.min over no constraints raises) *)
Definition vv_alpha (L A : mat) (b : vec) (Xhat : mat) (x0 xh h : vec) : R :=
  let fa := if small_dir h then Some 0 else omin_list (map (face_alpha x0 h) (combine A b)) in
  match omin (omin_list (map (site_alpha L x0 xh h) Xhat)) fa with Some a => a | None => 0 end.
Definition vv_step (m : nat) (L A : mat) (b : vec) (Aeq Xhat : mat) (qr : mat -> mat) (randomize : bool) (ord : list nat) (g : vec) (k : nat) (x0 : vec) : vec :=
  let xh := site Xhat ord 0 in
  let h := vv_dir m L qr randomize (vv_null m L A b Aeq Xhat ord k x0) g x0 xh in
  vadd x0 (vscale (vv_alpha L A b Xhat x0 xh h) h).
(** the loop over k, vertex.py 211-307; [ords k x] the argsort, [gs k] the random direction; n iterations *)
Fixpoint vv_walk (n k : nat) (m : nat) (L A : mat) (b : vec) (Aeq Xhat : mat) (qr : mat -> mat) (randomize : bool) (ords : vec -> list nat) (gs : nat -> vec) (x0 : vec) : vec :=
  match n with
  | O => x0
  | S n' => vv_walk n' (S k) m L A b Aeq Xhat qr randomize ords gs (vv_step m L A b Aeq Xhat qr randomize (ords x0) (gs k) k x0)
  end.
