(** Model of psdr/geometry/miniball.py, psdr/study.py and the sampling part of psdr/duu.py. *)
Require Import Reals ZArith List Bool Arith.
From Verif Require Import RVec Num DomMoreModel LipModel SampModel.
Import ListNotations.
Local Open Scope R_scope.

(* ------------------------------------------------------------------ miniball *)
(** the objective, miniball.py 28-31: the columns of L (x 1^T - X^T), their 2-norms, the largest of them *)
Definition mb_obj (L : mat) (X : mat) (x : vec) : R := vmax (map (fun p => norm2 (mv L (vsub x p))) X).

(** miniball.py 24-35.  X.shape needs at least one row (None otherwise); [solve] is cvxpy's solver, given the objective. *)
Definition miniball (solve : (vec -> R) -> vec) (X : mat) (L : option mat) : option (vec * R) :=
  match X with
  | [] => None
  | p0 :: _ => let m := length p0 in
               let L := match L with Some L => L | None => meye m end in
               let x := solve (mb_obj L X) in Some (x, mb_obj L X x)
  end.

(* ------------------------------------------------------------------ study *)
(** subspace_convergence, study.py 33-57.  [fit N] is one pass of the loop body: draw the sample for N, evaluate, fit, and return the
    number of points and the basis U (the object sdr is refitted in every pass and U is copied, so passes do not interact);
    [k] the subspace dimension; [angle] the largest subspace angle. *)
Definition first_cols (k : nat) (U : mat) : mat := map (firstn k) U.
Definition subspace_convergence (pi2 : R) (angle : mat -> mat -> R) (fit : nat -> nat * mat) (Ns : list nat) (k : nat) : list R * list nat :=
  let Us := map (fun N => first_cols k (snd (fit N))) Ns in
  let Ms := map (fun N => fst (fit N)) Ns in
  (pi2 :: map (fun i => angle (nth i Us []) (nth (S i) Us [])) (seq 0 (length Us - 1)), Ms).

(* ------------------------------------------------------------------ duu *)
(** np.percentile(y, q) with linear interpolation; None for an empty sample or q outside [0, 100] *)
Definition rfloor (v : R) : nat := Z.to_nat (Int_part v).
Definition percentile (y : vec) (q : R) : option R :=
  match y with
  | [] => None
  | _ => if andb (Rleb 0 q) (Rleb q 100) then
           let s := rsort y in
           let n := length s in
           let v := q / 100 * INR (n - 1) in
           let j := rfloor v in
           Some (vget s j + (v - INR j) * (vget s (Nat.min (S j) (n - 1)) - vget s j))
         else None
  end.
(** empirical_safety_factor_1d, duu.py 71-79, on the ridge coordinates of the sample *)
Definition safety_factor (upper : bool) (prob : R) (y : vec) : option R :=
  if upper then percentile y (100 * (1 - prob)) else percentile y (100 * prob).
