(** Model of psdr/basis.py, psdr/vandermonde.py and psdr/poly.py. *)
Require Import Reals List Bool Arith ZArith.
From Verif Require Import RVec Sums DomMoreModel.
Import ListNotations.
Local Open Scope R_scope.

(* ---------------- index sets ---------------- *)
(** _full_index_set, basis.py 32-53.  The rows for i = 0, then for i = 1..n.  For d = 0 the Python
    recursion does not terminate; the model returns no row (only d >= 1 is used in theorems). *)
Fixpoint full_index (n d : nat) : list (list nat) :=
  match d with
  | O => []
  | S O => [[n]]
  | S d' => flat_map (fun i => map (cons i) (full_index (n - i) d')) (seq 0 (S n))
  end.
(** index_set, basis.py 55-73: degree 0, then degree 1..n, finally every row reversed *)
Definition index_set (n d : nat) : list (list nat) :=
  map (@rev nat) (repeat O d :: flat_map (fun i => full_index i d) (seq 1 n)).

(* ---------------- tensor bases ---------------- *)
(** A family of univariate polynomials as used by PolynomialTensorBasis: column a of vander is
    [phi a]; [dco a b] is the coefficient of phi_b in the derivative of phi_a. *)
Record family := mkFam { phi : nat -> R -> R; dco : nat -> nat -> R }.

(** numpy's polyder/legder/chebder/hermder/lagder: linear in the coefficients, the result is one shorter,
    and [0] when the input has at most one entry.  Library functions, given by the coefficients [dco]. *)
Definition polyder (F : family) (c : vec) : vec :=
  if Nat.leb (length c) 1 then [0]
  else map (fun b => rsum (length c) (fun a => vget c a * dco F a b)) (seq 0 (length c - 1)).
(** the same with m = 2: [0] when the degree is at most 1, else the derivative is taken twice *)
Definition polyder2 (F : family) (c : vec) : vec :=
  if Nat.leb (length c) 2 then [0] else polyder F (polyder F c).

(** np.polynomial.polynomial (basis.py 361-367) *)
Definition monomials : family := mkFam (fun a x => x ^ a) (fun a b => if Nat.eqb a (S b) then INR a else 0).
(** three term recurrences of numpy's vander functions *)
Fixpoint rec3 (p0 p1 : R) (step : nat -> R -> R -> R) (n : nat) : R * R :=
  match n with
  | O => (p0, p1)
  | S n' => let (a, b) := rec3 p0 p1 step n' in (b, step (S n') b a)
  end.
(** legvander: v[i] = (v[i-1]*x*(2i-1) - v[i-2]*(i-1))/i; legder (basis.py 370-378) *)
Definition leg (a : nat) (x : R) : R := fst (rec3 1 x (fun n b a => (b * x * (2 * INR (S n) - 1) - a * (INR (S n) - 1)) / INR (S n)) a).
Definition odd_gap (a b : nat) : bool := Nat.ltb b a && Nat.odd (a - b).
Definition legendre : family := mkFam leg (fun a b => if odd_gap a b then 2 * INR b + 1 else 0).
(** chebvander: v[i] = v[i-1]*2x - v[i-2]; chebder (basis.py 380-388) *)
Definition cheb (a : nat) (x : R) : R := fst (rec3 1 x (fun n b a => b * (2 * x) - a) a).
Definition chebyshev : family := mkFam cheb (fun a b => if odd_gap a b then (if Nat.eqb b 0 then INR a else 2 * INR a) else 0).
(** hermvander: v[i] = v[i-1]*2x - v[i-2]*(2(i-1)); hermder (basis.py 402-410) *)
Definition herm (a : nat) (x : R) : R := fst (rec3 1 (2 * x) (fun n b a => b * (2 * x) - a * (2 * (INR (S n) - 1))) a).
Definition hermite : family := mkFam herm (fun a b => if Nat.eqb a (S b) then 2 * INR a else 0).
(** lagvander: v[i] = (v[i-1]*(2i-1-x) - v[i-2]*(i-1))/i; lagder (basis.py 392-400) *)
Definition lag (a : nat) (x : R) : R := fst (rec3 1 (1 - x) (fun n b a => (b * (2 * INR (S n) - 1 - x) - a * (INR (S n) - 1)) / INR (S n)) a).
Definition laguerre : family := mkFam lag (fun a b => if Nat.ltb b a then -1 else 0).

(** scaling of the inputs: basis.py 127-152 and, for Hermite, 412-426 *)
Inductive scaling := NoScale | MinMax (lb ub : vec) | MeanStd (mean std : vec).
Definition mean (x : vec) : R := vsum x / INR (length x).
Definition pstd (x : vec) : R := sqrt (mean (map (fun a => (a - mean x) * (a - mean x)) x)).
Definition set_scale (dim : nat) (X : mat) : scaling :=
  MinMax (map (fun k => vmin (col X k)) (seq 0 dim)) (map (fun k => vmax (col X k)) (seq 0 dim)).
Definition set_scale_hermite (dim : nat) (X : mat) : scaling :=
  MeanStd (map (fun k => mean (col X k)) (seq 0 dim)) (map (fun k => pstd (col X k)) (seq 0 dim)).
Definition scale (s : scaling) (k : nat) (x : R) : R :=
  match s with
  | NoScale => x
  | MinMax lb ub => 2 * (x - vget lb k) / (vget ub k - vget lb k) - 1
  | MeanStd mu sd => (x - vget mu k) / vget sd k / sqrt 2
  end.
Definition dscale (s : scaling) (k : nat) : R :=
  match s with
  | NoScale => 1
  | MinMax lb ub => 2 / (vget ub k - vget lb k)
  | MeanStd mu sd => 1 / vget sd k / sqrt 2
  end.
(** no division by zero in scale: otherwise every entry of V, DV, DDV is NaN *)
Definition scale_ok (s : scaling) (dim : nat) : bool :=
  match s with
  | NoScale => true
  | MinMax lb ub => forallb (fun k => if Req_EM_T (vget ub k) (vget lb k) then false else true) (seq 0 dim)
  | MeanStd mu sd => forallb (fun k => if Req_EM_T (vget sd k) 0 then false else true) (seq 0 dim)
  end.

Record tbasis := mkTB { tb_fam : family; tb_deg : nat; tb_dim : nat; tb_scale : scaling }.
Definition indices (B : tbasis) : list (list nat) := index_set (tb_deg B) (tb_dim B).
Definition ith (a : list nat) (k : nat) : nat := nth k a O.

Fixpoint prodn (n : nat) (f : nat -> R) : R := match n with O => 1 | S n' => prodn n' f * f n' end.

(** V_coordinate[k] on one row: vander(x_k, degree) *)
Definition vcoord (B : tbasis) (x : vec) (k : nat) : vec :=
  map (fun a => phi (tb_fam B) a (scale (tb_scale B) k (vget x k))) (seq 0 (S (tb_deg B))).
(** row of Dmat, basis.py 119-125: polyder of a unit vector; for degree 0 the [0] is broadcast to length 0 *)
Definition unitc (n j : nat) : vec := map (fun a => if Nat.eqb a j then 1 else 0) (seq 0 n).
Definition Dmat (B : tbasis) (a : nat) : vec :=
  if Nat.eqb (tb_deg B) 0 then [] else polyder (tb_fam B) (unitc (S (tb_deg B)) a).

(** V, basis.py 154-193: one row.  The rows for several points are computed independently. *)
Definition Vrow (B : tbasis) (x : vec) : vec :=
  map (fun al => prodn (tb_dim B) (fun k => vget (vcoord B x k) (ith al k))) (indices B).
Definition Vmat (B : tbasis) (X : mat) : option mat :=
  if scale_ok (tb_scale B) (tb_dim B) then Some (map (Vrow B) X) else None.

(** VC, basis.py 195-242: column k of the product, rows of c with no non-zero entry skipped.
    None: the assertion on the number of rows.  c is 2-d (M x p). *)
Fixpoint vc_loop (B : tbasis) (x : vec) (idx : list (list nat)) (c : mat) (out : vec) : vec :=
  match idx, c with
  | al :: idx', cj :: c' =>
      let out' := if Rltb 0 (vmax (map Rabs cj)) then
                    let colv := prodn (tb_dim B) (fun l => vget (vcoord B x l) (ith al l)) in
                    vadd out (map (fun cjk => cjk * colv) cj)
                  else out in
      vc_loop B x idx' c' out'
  | _, _ => out
  end.
Definition VCrow (B : tbasis) (p : nat) (c : mat) (x : vec) : vec := vc_loop B x (indices B) c (vzero p).
Definition VC (B : tbasis) (p : nat) (X c : mat) : option mat :=
  if Nat.eqb (length (indices B)) (length c) then Some (map (VCrow B p c) X) else None.

(** DV, basis.py 244-293: entry (alpha, k) at the point x *)
Definition DVent (B : tbasis) (x : vec) (al : list nat) (k : nat) : R :=
  prodn (tb_dim B) (fun q => if Nat.eqb q k then dot (removelast (vcoord B x q)) (Dmat B (ith al q))
                             else vget (vcoord B x q) (ith al q)) * dscale (tb_scale B) k.
Definition DVrow (B : tbasis) (x : vec) : list vec := map (fun al => map (DVent B x al) (seq 0 (tb_dim B))) (indices B).

(** DDV, basis.py 295-352: entry (alpha, k, l) for k <= l, mirrored *)
Definition DDVup (B : tbasis) (x : vec) (al : list nat) (k l : nat) : R :=
  prodn (tb_dim B) (fun q =>
    if Nat.eqb q k && Nat.eqb k l then
      let d2 := polyder2 (tb_fam B) (unitc (S (tb_deg B)) (ith al q)) in dot (firstn (length d2) (vcoord B x q)) d2
    else if Nat.eqb q k || Nat.eqb q l then dot (removelast (vcoord B x q)) (Dmat B (ith al q))
    else vget (vcoord B x q) (ith al q)) * (dscale (tb_scale B) k * dscale (tb_scale B) l).
Definition DDVent (B : tbasis) (x : vec) (al : list nat) (k l : nat) : R :=
  if Nat.leb k l then DDVup B x al k l else DDVup B x al l k.
Definition DDVrow (B : tbasis) (x : vec) : list mat :=
  map (fun al => map (fun k => map (DDVent B x al k) (seq 0 (tb_dim B))) (seq 0 (tb_dim B))) (indices B).

(** roots, basis.py 354-358 and 428-432: [r] are the roots found by polyroots in the scaled variable.
    None: NotImplementedError for dim > 1, AttributeError without a scale. *)
Definition roots (B : tbasis) (r : vec) : option vec :=
  if Nat.ltb 1 (tb_dim B) then None else
  match tb_scale B with
  | NoScale => None
  | MinMax lb ub => Some (map (fun t => t * (vget ub 0 - vget lb 0) / 2 + (vget ub 0 + vget lb 0) / 2) r)
  | MeanStd mu sd => Some (map (fun t => t * vget sd 0 * sqrt 2 + vget mu 0) r)
  end.

(* ---------------- polynomial functions, poly.py 60-111 ---------------- *)
(** eval, grad, hessian at one point *)
Definition poly_eval (B : tbasis) (c : vec) (x : vec) : R := dot (Vrow B x) c.
Definition poly_grad (B : tbasis) (c : vec) (x : vec) : vec :=
  map (fun k => dot (map (fun row => vget row k) (DVrow B x)) c) (seq 0 (tb_dim B)).
Definition poly_hess (B : tbasis) (c : vec) (x : vec) : mat :=
  map (fun k => map (fun l => dot (map (fun h => vget (nth k h []) l) (DDVrow B x)) c) (seq 0 (tb_dim B))) (seq 0 (tb_dim B)).

(* ---------------- Vandermonde with Arnoldi ---------------- *)
(** _update_vec, basis.py 449-455 and vandermonde.py 10-16: the last row j of idx such that
    sum |idx_j - ids| <= 1 and min (idx_j - ids) = -1; i is the position of the -1. None: no such row. *)
Definition zdiff (a b : list nat) : list Z := map (fun p => Z.of_nat (fst p) - Z.of_nat (snd p))%Z (combine a b).
Definition one_off (a ids : list nat) : bool :=
  let d := zdiff a ids in
  Z.leb (fold_right Z.add 0%Z (map Z.abs d)) 1 && (match d with [] => false | z :: d' => Z.eqb (fold_left Z.min d' z) (-1) end).
Fixpoint pos_m1 (d : list Z) (i : nat) : nat :=
  match d with [] => i | z :: d' => if Z.eqb z (-1) then i else pos_m1 d' (S i) end.
Fixpoint last_off (idx : list (list nat)) (ids : list nat) (j : nat) (found : option nat) : option nat :=
  match idx with
  | [] => found
  | a :: idx' => last_off idx' ids (S j) (if one_off a ids then Some j else found)
  end.
Definition update_vec (idx : list (list nat)) (ids : list nat) : option (nat * nat) :=
  match last_off idx ids O None with
  | Some j => Some (pos_m1 (zdiff (nth j idx []) ids) O, j)
  | None => None
  end.

(** modified Gram-Schmidt of q against the columns Q, basis.py 480-482 (w = 1), vandermonde.py 65-67 (w = M) *)
Fixpoint mgs (w : R) (Q : list vec) (q : vec) : vec * vec :=
  match Q with
  | [] => ([], q)
  | u :: Q' => let r := dot u q / w in let (rs, q') := mgs w Q' (vsub q (vscale r u)) in (r :: rs, q')
  end.
(** one new column: returns the column, its coefficients R[0..k-1,k] and the norm R[k,k] (H[k+1,k]) *)
Definition new_col (w : R) (Q : list vec) (q : vec) : vec * (vec * R) :=
  let (rs, q') := mgs w Q q in
  let r := norm2 q' / sqrt w in (vscale (/ r) q', (rs, r)).

(** state: columns of Q and columns of R, in order.  A column of R is (R[0..k-1,k], R[k,k]). *)
Definition astate := (list vec * list (vec * R))%type.
(** the loop over the remaining indices.  [lookup k]: the rows searched by _update_vec for column k.  None: _update_vec fails.  A zero norm is a division by zero
    (NaN) in the code; theorems assume the recorded norms are not zero. *)
Fixpoint arnoldi_loop (w : R) (lookup : nat -> list (list nat)) (X : mat) (rest : list (list nat)) (st : astate) : option astate :=
  match rest with
  | [] => Some st
  | ids :: rest' =>
      match update_vec (lookup (length (fst st))) ids with
      | None => None
      | Some (i, j) =>
          let q := vmul (col X i) (nth j (fst st) []) in
          let (v, rr) := new_col w (fst st) q in
          arnoldi_loop w lookup X rest' (fst st ++ [v], snd st ++ [rr])
      end
  end.
(** basis.py 457-487: first column 1/sqrt M, R[0,0] = sqrt M *)
Definition arnoldi (X : mat) (idx : list (list nat)) : option astate :=
  let M := INR (length X) in
  arnoldi_loop 1 (fun _ => idx) X (tl idx) ([map (fun _ => 1 / sqrt M) X], [([], sqrt M)]).
(** vandermonde.py 19-71: the first column is normalized like the others.  The rows searched by
    _update_vec are idx[:k]. *)
Definition vandermonde_arnoldi (X : mat) (p n : nat) : option astate :=
  let idx := index_set p n in
  let (v, rr) := new_col (INR (length X)) [] (map (fun _ => 1) X) in
  arnoldi_loop (INR (length X)) (fun k => firstn k idx) X (tl idx) ([v], [rr]).

(** arnoldi_X, basis.py 489-510 (and polyvalA, vandermonde.py 119-130), for one point: list of the
    values of the basis functions.  [Rs]: remaining columns of R. *)
Fixpoint arnoldi_X_loop (lookup : nat -> list (list nat)) (x : vec) (rest : list (list nat)) (Rs : list (vec * R)) (W : vec) : option vec :=
  match rest, Rs with
  | ids :: rest', (rs, r) :: Rs' =>
      match update_vec (lookup (length W)) ids with
      | None => None
      | Some (i, j) => arnoldi_X_loop lookup x rest' Rs' (W ++ [(vget x i * vget W j - dot rs W) / r])
      end
  | _, _ => Some W
  end.
Definition arnoldi_X (lookup : nat -> list (list nat)) (idx : list (list nat)) (Rs : list (vec * R)) (x : vec) : option vec :=
  match Rs with
  | (_, r0) :: Rs' => arnoldi_X_loop lookup x (tl idx) Rs' [1 / r0]
  | [] => None
  end.

(** DV of the Arnoldi basis, basis.py 520-544, direction ell, one point; [V]: the values at the point *)
Fixpoint arnoldi_DV_loop (lookup : list (list nat)) (x V : vec) (ell : nat) (rest : list (list nat)) (Rs : list (vec * R)) (D : vec) : option vec :=
  match rest, Rs with
  | ids :: rest', (rs, r) :: Rs' =>
      match update_vec lookup ids with
      | None => None
      | Some (i, j) =>
          let d := if Nat.eqb i ell then vget V j + vget x i * vget D j - dot D rs else vget x i * vget D j - dot D rs in
          arnoldi_DV_loop lookup x V ell rest' Rs' (D ++ [d / r])
      end
  | _, _ => Some D
  end.
Definition arnoldi_DV (idx : list (list nat)) (Rs : list (vec * R)) (x V : vec) (ell : nat) : option vec :=
  match Rs with
  | _ :: Rs' => arnoldi_DV_loop idx x V ell (tl idx) Rs' [0]
  | [] => None
  end.

(** binomial coefficients (scipy.special.comb) *)
Fixpoint choose (n k : nat) : nat :=
  match n, k with
  | _, O => 1
  | O, S _ => 0
  | S n', S k' => choose n' k' + choose n' k
  end.
(** degree search of polyvalA, vandermonde.py 109-115; [fuel] bounds the while loop, None: not found *)
Fixpoint find_degree (fuel m len p : nat) : option nat :=
  match fuel with
  | O => None
  | S f => if Nat.leb len (choose (m + p) p) then Some p else find_degree f m len (S p)
  end.
(** polyvalA, vandermonde.py 90-132, one point *)
Definition polyvalA (fuel m : nat) (d : vec) (Rs : list (vec * R)) (x : vec) : option R :=
  match find_degree fuel m (length d) O with
  | Some p =>
      let idx := index_set p m in
      if Nat.eqb (length idx) (length Rs) then
        match arnoldi_X (fun k => firstn k idx) idx Rs x with Some W => Some (dot W d) | None => None end
      else None
  | None => None
  end.

(* ---------------- linear_fit, poly.py 19-44 ---------------- *)
Inductive fnorm := N1 | N2 | Ninf.
Inductive fbound := NoBound | Lower | Upper.
Definition fit_residual (A : mat) (b x : vec) : vec := vsub (mv A x) b.
Definition fit_obj (p : fnorm) (r : vec) : R :=
  match p with N1 => vsum (map Rabs r) | N2 => norm2 r | Ninf => vmax (map Rabs r) end.
Definition fit_con (bd : fbound) (r : vec) : Prop :=
  match bd with NoBound => True | Lower => Forall (fun t => t <= 0) r | Upper => Forall (fun t => 0 <= t) r end.
(** what the solver (lstsq or ECOS) returns when it is exact: a feasible minimizer *)
Definition linear_fit_returns (p : fnorm) (bd : fbound) (A : mat) (b x : vec) : Prop :=
  fit_con bd (fit_residual A b x) /\
  forall y, length y = length x -> fit_con bd (fit_residual A b y) -> fit_obj p (fit_residual A b x) <= fit_obj p (fit_residual A b y).
