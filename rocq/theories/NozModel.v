(** Model of psdr/demos/_multif_linear_constraints.py (linear constraints of the nozzle parameterization).  Printing is left out;
    the design domain built from these functions is in NozData.v.
    The temporary matrix B is built row by row; a row is the list of its assignments B[m,i] = a in the order they are made
    (a later assignment to the same entry wins) together with the right-hand side c[m]. *)
Require Import Reals List Bool Arith.
From Verif Require Import RVec Num DomMoreModel.
Import ListNotations.
Local Open Scope R_scope.

Definition constr : Type := (list (nat * R) * R)%type.
Definition put (i : nat) (a : R) : nat * R := (i, a).
Arguments put i%nat a%R.
(** entry k of a row of np.zeros after the assignments *)
Definition entry (l : list (nat * R)) (k : nat) : R := fold_left (fun acc e => if Nat.eqb (fst e) k then snd e else acc) l 0.
Definition brow (n : nat) (r : constr) : vec := map (entry (fst r)) (seq 0 n).
(** B and c as far as filled; None: IndexError, by a column outside 0..n-1 or by a row beyond the [limit] rows allocated *)
Definition fillB (limit n : nat) (rows : list constr) : option (list (vec * R)) :=
  if andb (Nat.leb (length rows) limit) (forallb (fun r => forallb (fun e => Nat.ltb (fst e) n) (fst r)) rows)
  then Some (map (fun r => (brow n r, snd r)) rows) else None.

(** "Remove columns from B that are not design variables", 172-180, 281-290, 327-336.  v gives the number of the design variable of
    every entry, 0 for a fixed one; the loop over the columns is applied to each row. *)
Definition vmaxn (v : list nat) : nat := fold_right Nat.max 0%nat v.
Fixpoint add_at (a : vec) (k : nat) (t : R) : vec :=
  match a, k with
  | [], _ => []
  | h :: a', O => (h + t) :: a'
  | h :: a', S k' => h :: add_at a' k' t
  end.
Definition reduce_step (v : list nat) (x row : vec) (ab : vec * R) (i : nat) : vec * R :=
  match nth i v 0%nat with
  | O => (fst ab, snd ab - vget x i * vget row i)
  | S k => (add_at (fst ab) k (vget row i), snd ab)
  end.
Definition reduce_row (v : list nat) (x : vec) (rc : vec * R) : vec * R :=
  fold_left (reduce_step v x (fst rc)) (seq 0 (length (fst rc))) (repeat 0 (vmaxn v), snd rc).
Definition reduce (v : list nat) (x : vec) (Bc : list (vec * R)) : mat * vec :=
  (map (fun rc => fst (reduce_row v x rc)) Bc, map (fun rc => snd (reduce_row v x rc)) Bc).

(** results: the matrices; the pair (0, 0) of a wrong list of slope limits; an exception *)
Inductive outcome : Type := Done (A : mat) (b : vec) | ZeroPair | Raised.
Definition finish (limit n : nat) (v : list nat) (x : vec) (rows : list constr) : outcome :=
  match fillB limit n rows with
  | None => Raised
  | Some Bc => if orb (Nat.ltb (length v) n) (match v with [] => true | _ => false end) then Raised
               else let (A, b) := reduce v x Bc in Done A b
  end.

(* ------------------------------------------------------------------ bspline, 28-185 *)
(** a slope limit: None, a number, or a list with a number for every segment *)
Inductive limit : Type := LNone | LVal (m : R) | LList (l : vec).
(** m_bound, 101-109 etc.; None: the list has the wrong length *)
Definition m_bound (l : limit) (n_seg : nat) : option vec :=
  match l with LNone => Some [] | LVal m => Some (repeat m n_seg) | LList l => if Nat.eqb (length l) n_seg then Some l else None end.
Definition is_lnone (l : limit) : bool := match l with LNone => true | _ => false end.
Definition delta2 : R := / 100.
Definition opt_row {A : Type} (o : option A) (f : A -> list constr) : list constr := match o with None => [] | Some a => f a end.
(** cross-over of x-coordinates, 46-54 *)
Definition x_rows (nx t : nat) (delta : R) (xl xr : option R) : list constr :=
  opt_row xl (fun a => [([put 0 (-1)], - delta - a)]) ++
  map (fun i => if orb (Nat.eqb i t) (orb (Nat.eqb i (t + 1)) (Nat.eqb i (t + 2)))
                then ([put i (-1); put (i - 1) 1], - / 20) else ([put i (-1); put (i - 1) 1], - delta)) (seq 1 (nx - 1)) ++
  opt_row xr (fun a => [([put (nx - 1) 1], a - delta)]).
(** max width of the throat, 62-64 *)
Definition width_rows (t : nat) : list constr :=
  if Nat.eqb t 0 then [] else [([put (t + 2) 1; put (t + 1) (-1)], / 10); ([put t 1; put (t - 1) (-1)], / 10)].
(** throat is lowest, 68-83 *)
Definition lowest_rows (lowest : bool) (n nx t : nat) : list constr :=
  if andb lowest (negb (Nat.eqb t 0)) then
    ([put (nx + t) 1; put (nx + t - 1) (-1)], - delta2) ::
    map (fun i => ([put i (-1); put (nx + t) 1], - delta2)) (seq (nx + t + 1) (n - (nx + t + 1)))
  else [].
(** minThroat and maxThroat, 85-97 *)
Definition min_rows (n nx : nat) (o : option R) : list constr := opt_row o (fun a => map (fun i => ([put i (-1)], - a)) (seq nx (n - nx))).
Definition max_rows (n nx : nat) (o : option R) : list constr := opt_row o (fun a => map (fun i => ([put i 1], a)) (seq nx (n - nx))).
(** slope bounds for the segments i = start, start+1, ...; the j-th uses m_bound[j] (100-170) *)
Definition slope_lo (nx start len : nat) (mb : vec) : list constr :=
  map (fun j => let i := (start + j)%nat in
     ([put i (vget mb j); put (i - 1) (- vget mb j); put (i + nx) (-1); put (i + nx - 1) 1], 0)) (seq 0 len).
Definition slope_hi (nx start len : nat) (mb : vec) : list constr :=
  map (fun j => let i := (start + j)%nat in
     ([put i (- vget mb j); put (i - 1) (vget mb j); put (i + nx) 1; put (i + nx - 1) (-1)], 0)) (seq 0 len).

(** v is indexed up to n_local - 1; t = throatIndex; s0..s3 = slopeLimits *)
Definition bspline (x : vec) (v : list nat) (t : nat) (s0 s1 s2 s3 : limit) (xl xr : option R) (delta : R)
    (lowest : bool) (minT maxT : option R) : outcome :=
  let n := length x in
  let nx := Nat.div2 n in
  let pre := if Nat.eqb t 0 then 0%nat else (t - 1)%nat in
  let post := (nx - 1 - (t + 2))%nat in
  let s0 := if Nat.eqb t 0 then LNone else s0 in
  let s1 := if Nat.eqb t 0 then LNone else s1 in
  match m_bound s0 pre, m_bound s1 pre, m_bound s2 post, m_bound s3 post with
  | Some b0, Some b1, Some b2, Some b3 =>
      finish 100 n v x
       (x_rows nx t delta xl xr ++ width_rows t ++ lowest_rows lowest n nx t ++ min_rows n nx minT ++ max_rows n nx maxT ++
        (if is_lnone s0 then [] else slope_lo nx 1 pre b0) ++ (if is_lnone s1 then [] else slope_hi nx 1 pre b1) ++
        (if is_lnone s2 then [] else slope_lo nx (t + 3) (nx - (t + 3)) b2) ++ (if is_lnone s3 then [] else slope_hi nx (t + 3) (nx - (t + 3)) b3))
  | _, _, _, _ => ZeroPair   (* an index error in the rows before the wrong list would come first: not distinguished *)
  end.

(* ------------------------------------------------------------------ piecewiseBilinearAxial, 200-292 *)
(** rows in the order of the code; for nx = 0 the code's index nx-1 = -1 would count from the end: the model is meant for nx >= 1 (the
    same holds for bspline) *)
Definition pba_rows (nx ny : nat) (mlo mhi : R) (xl xr : option R) (dx : R) (dy dz : option R) : list constr :=
  opt_row xl (fun a => [([put 0 (-1)], - dx - a)]) ++
  map (fun i => ([put i (-1); put (i - 1) 1], - dx)) (seq 1 (nx - 1)) ++
  opt_row xr (fun a => [([put (nx - 1) 1], a - dx)]) ++
  opt_row dy (fun d => map (fun i => ([put i (-1); put (i - 1) 1], - d)) (seq (1 + nx - 1) (ny + nx - 1 - (1 + nx - 1)))) ++
  flat_map (fun i => map (fun j => ([put i mlo; put (i - 1) (- mlo); put (nx + ny + j * nx + i - 1) 1; put (nx + ny + j * nx + i) (-1)], 0)) (seq 0 ny)) (seq 1 (nx - 1)) ++
  flat_map (fun i => map (fun j => ([put i (- mhi); put (i - 1) mhi; put (nx + ny + j * nx + i - 1) (-1); put (nx + ny + j * nx + i) 1], 0)) (seq 0 ny)) (seq 1 (nx - 1)) ++
  opt_row dz (fun d => flat_map (fun i =>
     let k := (nx + ny + i)%nat in let k2 := (nx + ny + i + (ny - 1) * nx)%nat in
     ([put k 1; put k2 (-1)], d) :: ([put k (-1); put k2 1], d) ::
     flat_map (fun j => let k := (nx + ny + (j - 1) * nx + i)%nat in let k2 := (nx + ny + j * nx + i)%nat in
        [([put k2 1; put k (-1)], d); ([put k2 (-1); put k 1], d)]) (seq 1 (ny - 1))) (seq 0 nx)).
Definition piecewiseBilinearAxial (x y z : vec) (v : list nat) (mlo mhi : R) (xl xr : option R) (dx : R) (dy dz : option R) : outcome :=
  let nx := length x in let ny := length y in
  if negb (Nat.eqb (length z) (nx * ny)) then Raised
  else if negb (Nat.eqb (length v) (nx + ny + length z)) then Raised
  else finish 100 (length v) v (x ++ y ++ z) (pba_rows nx ny mlo mhi xl xr dx dy dz).

(* ------------------------------------------------------------------ baffles, 303-337 *)
(** the array B has exactly the (len(x)-1)*2 rows needed (np.zeros raises for a negative number); the fixed entries are read from
    hstack((x, t)); h is not used *)
Definition baffle_rows (nx : nat) (dmin dmax : R) : list constr :=
  flat_map (fun i => [([put i 1; put (i - 1) (-1)], dmax); ([put i (-1); put (i - 1) 1], - dmin)]) (seq 1 (nx - 1)).
Definition baffles (x th : vec) (v : list nat) (dmin dmax : R) : outcome :=
  if Nat.eqb (length x) 0 then Raised
  else if existsb (fun i => andb (Nat.eqb (nth i v 0%nat) 0) (Nat.leb (length (x ++ th)) i)) (seq 0 (length v)) then Raised
  else finish ((length x - 1) * 2) (length v) v (x ++ th) (baffle_rows (length x) dmin dmax).

(* ------------------------------------------------------------------ cleanupConstraintMatrix, 341-383 *)
(** rows padded with zeros to the largest number of columns, stacked; rows without a nonzero entry deleted.  A matrix is given with its
    number of columns (shape).  None: np.max of an empty list. *)
Definition pad (n : nat) (a : vec) : vec := a ++ repeat 0 (n - length a).
Definition zero_row (a : vec) : bool := forallb (fun e => Reqb e 0) a.
Definition stack (Ls : list (nat * mat * vec)) : list (vec * R) :=
  let n := vmaxn (map (fun L => fst (fst L)) Ls) in
  flat_map (fun L => map (fun ab => (pad n (fst ab), snd ab)) (combine (snd (fst L)) (snd L))) Ls.
Definition cleanup (Ls : list (nat * mat * vec)) : option (mat * vec) :=
  match Ls with
  | [] => None
  | _ => let rows := filter (fun ab => negb (zero_row (fst ab))) (stack Ls) in Some (map fst rows, map snd rows)
  end.
