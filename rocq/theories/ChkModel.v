(** Model of the derivative checks, checkder/checkder.py.
    Arithmetic is exact on the reals, with the special values of [num] where the code divides.  Printing is left out. *)
Require Import Reals List Bool Arith.
From Verif Require Import RVec Num DomMoreModel LipModel.
Import ListNotations.
Local Open Scope R_scope.

(** np.abs *)
Definition nabs (a : num) : num := match a with Fin r => Fin (Rabs r) | NaN => NaN | _ => PInf end.
(** np.min (checkder.py 77, 100): NaN propagates, an empty list raises (None) *)
Definition npmin (l : list num) : option num := match l with [] => None | a :: l' => Some (fold_left nmin l' a) end.
(** Python's min (checkder.py 40, 60): keeps the first element unless a later one compares smaller *)
Definition pyminl (l : list num) : option num :=
  match l with [] => None | a :: l' => Some (fold_left (fun m b => if nltb b m then b else m) l' a) end.
(** np.linalg.norm(., 2) of an array with special values *)
Definition is_nan (a : num) : bool := match a with NaN => true | _ => false end.
Definition nval (a : num) : R := match a with Fin r => r | _ => 0 end.
Definition nnorm (l : list num) : num :=
  if existsb is_nan l then NaN else if forallb is_fin l then Fin (norm2 (map nval l)) else PInf.

(** np.logspace(a, b, n) for n >= 2 (checkder.py 12, 49, 68, 86) *)
Definition logspace (a b : R) (n : nat) : vec := map (fun k => Rpower 10 (a + (b - a) * INR k / INR (n - 1))) (seq 0 n).
Definition hvec_default : vec := logspace (-14) (-1) 100.
Definition hvec_hess : vec := logspace (-7) (-1) 10.

(** x + ei*h and x - ei*h (checkder.py 19-25, 57-59, 74-76) *)
Definition step_up (x : vec) (i : nat) (h : R) : vec := vadd x (vscale h (unit_row_ (length x) i)).
Definition step_dn (x : vec) (i : nat) (h : R) : vec := vsub x (vscale h (unit_row_ (length x) i)).

(** the loops "max_err = 0; for i in range(n): max_err = max(<error of coordinate i>, max_err)"; None when the inner minimum raises *)
Definition chk_step (e : nat -> option num) (acc : option num) (i : nat) : option num :=
  match acc, e i with Some m, Some v => Some (pymax v m) | _, _ => None end.
Definition chk_loop (e : nat -> option num) (l : list nat) : option num := fold_left (chk_step e) l (Some (Fin 0)).

(** check_derivative (checkder.py 65-80).  Objective values and entries of the gradient are single numbers: the infinity norm of a
    one-element array is the absolute value (numpy refuses that norm for a bare scalar). *)
Definition deriv_err (obj : vec -> R) (g x : vec) (i : nat) (h : R) : num :=
  nabs (nsub (ndivr (Fin (obj (step_up x i h) - obj (step_dn x i h))) (2 * h)) (Fin (vget g i))).
Definition check_derivative (x : vec) (obj : vec -> R) (grad : vec -> vec) (hvec : vec) : option num :=
  let g := grad x in chk_loop (fun i => npmin (map (deriv_err obj g x i) hvec)) (seq 0 (length x)).

(** check_gradient (checkder.py 45-63): the gradient of half the squared norm of the residual; J has one row per residual *)
Definition jt_r (J : mat) (r : vec) (n : nat) : vec := map (fun i => dot (map (fun row => vget row i) J) r) (seq 0 n).
Definition gradient_err (residual : vec -> vec) (g x : vec) (i : nat) (h : R) : num :=
  nabs (nsub (ndivr (Fin (/ 2 * (norm2 (residual (step_up x i h)) ^ 2 - norm2 (residual (step_dn x i h)) ^ 2))) (2 * h)) (Fin (vget g i))).
Definition check_gradient (x : vec) (residual : vec -> vec) (jac : vec -> mat) (hvec : vec) : option num :=
  let g := jt_r (jac x) (residual x) (length x) in
  chk_loop (fun i => pyminl (map (gradient_err residual g x i) hvec)) (seq 0 (length x)).

(** check_jacobian (checkder.py 9-42): relative error of every column.  The argmin only serves the printed line (it raises on an
    empty list of steps, as the minimum does). *)
Definition jcol (J : mat) (i : nat) : vec := map (fun row => vget row i) J.
Definition jac_err (residual : vec -> vec) (J : mat) (x : vec) (i : nat) (h : R) : num :=
  nnorm (zipw (fun d c => nsub (ndivr (Fin d) (2 * h)) (Fin c))
              (vsub (residual (step_up x i h)) (residual (step_dn x i h))) (jcol J i)).
Definition check_jacobian (x : vec) (residual : vec -> vec) (jac : vec -> mat) (hvec : vec) : option num :=
  let J := jac x in
  chk_loop (fun i => match pyminl (map (jac_err residual J x i) hvec) with
                     | None => None | Some e => Some (ndivr e (norm2 (jcol J i))) end) (seq 0 (length x)).

(** check_hessian (checkder.py 82-104): mixed central differences on the fixed list of steps *)
Definition hess_err (obj : vec -> R) (H : mat) (x : vec) (i j : nat) (h : R) : num :=
  nabs (nsub (ndivr (Fin ((obj (step_up (step_up x i h) j h) - obj (step_up (step_dn x i h) j h))
                        - (obj (step_dn (step_up x i h) j h) - obj (step_dn (step_dn x i h) j h)))) (4 * h ^ 2))
             (Fin (vget (nth i H []) j))).
Definition check_hessian_steps (x : vec) (obj : vec -> R) (hess : vec -> mat) (hvec : vec) : num :=
  let H := hess x in
  fold_left (fun m ij => pymax (fold_left nmin (map (hess_err obj H x (fst ij) (snd ij)) hvec) PInf) m)
            (list_prod (seq 0 (length x)) (seq 0 (length x))) (Fin 0).
Definition check_hessian (x : vec) (obj : vec -> R) (hess : vec -> mat) : num := check_hessian_steps x obj hess hvec_hess.
