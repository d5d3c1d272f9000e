(** Model of psdr/function.py (class Function) and psdr/misc.py (merge). *)
Require Import Reals List Bool Arith.
From Verif Require Import RVec Num DomModel DomMoreModel.
Import ListNotations.
Local Open Scope R_scope.

(** keyword arguments: a dictionary with real values (keys are numbers instead of strings) *)
Definition kwd := nat -> option R.
Definition nokw : kwd := fun _ => None.
(** misc.py 6-9: copy and update *)
Definition merge (x y : kwd) : kwd := fun k => match y k with Some v => Some v | None => x k end.

(** A Function object, function.py 71-130.  [f_lb], [f_ub]: normalization bounds of domain_app.
    [f_funs]: functions of one point, result flattened to 1-d (np.hstack of scalars and 1-d arrays).
    [f_grads]: functions returning the rows of the gradient (one row per output; np.vstack).
    [f_ret]: the functions called with return_grad = True, used when self.return_grad.
    [f_vec]: vectorized; the vectorized functions are given separately below.
    Dask/pickling not modelled. *)
Record func := mkFun {
  f_lb : list num; f_ub : list num;
  f_funs : list (kwd -> vec -> vec);
  f_grads : option (list (kwd -> vec -> mat));
  f_ret : option (list (kwd -> vec -> vec * mat));
  f_fd : bool;
  f_kw : kwd }.

Definition fdim (F : func) : nat := length (f_lb F).

(** eval on a 1-d array, function.py 132-140 *)
Definition eval1 (F : func) (kw : kwd) (z : vec) : vec :=
  let x := unnormalize (f_lb F) (f_ub F) z in
  concat (map (fun f => f (merge (f_kw F) kw) x) (f_funs F)).
(** eval on a 2-d array without vectorization, function.py 142, 154-155 *)
Definition eval2 (F : func) (kw : kwd) (Z : mat) : mat := map (eval1 F kw) Z.

(** Vectorized functions return for all rows at once either a 1-d array (one value per row) or a
    2-d array; function.py 143-153 reshapes the former to a column, then np.hstack.  None: assertion. *)
Inductive vout := V1 (v : vec) | V2 (A : mat).
Definition vrows (o : vout) : mat := match o with V1 v => map (fun a => [a]) v | V2 A => A end.
Definition hstack_rows (M : nat) (Bs : list mat) : mat :=
  map (fun i => concat (map (fun B => nth i B []) Bs)) (seq 0 M).
Definition eval_vec (F : func) (vf : list (kwd -> mat -> vout)) (kw : kwd) (Z : mat) : option mat :=
  let X := map (unnormalize (f_lb F) (f_ub F)) Z in
  let outs := map (fun f => vrows (f (merge (f_kw F) kw) X)) vf in
  if forallb (fun B => Nat.eqb (length B) (length X)) outs then Some (hstack_rows (length X) outs) else None.

(** numpy arrays of rank 1, 2, 3 *)
Inductive tens := T1 (x : vec) | T2 (A : mat) | T3 (G : list mat).

(** _shape_grad, function.py 181-192: [G] is the 3-d array; [one_d]: X_norm is 1-d.  grads.shape[1]
    is read off the first slice.  reshape keeps the C order; None: reshape fails.
    In the branch on line 190, grads.shape[1] = 1 but the first axis need not be the sample axis. *)
Definition shape_grad (m M : nat) (one_d : bool) (G : list mat) : option tens :=
  let s1 := length (hd [] G) in
  if one_d then
    (if Nat.eqb s1 1 then (match concat G with [r] => Some (T1 r) | _ => None end)
     else (if Nat.eqb (length (concat G)) s1 then Some (T2 (concat G)) else None))
  else if Nat.eqb s1 1 then (if Nat.eqb (length (concat G)) M then Some (T2 (concat G)) else None)
  else Some (T3 G).

(** grads.dot(D.T): every row r becomes D r *)
Definition chain (D : mat) (G : list mat) : list mat := map (map (mv D)) G.

(** the step of the finite difference, function.py 201 *)
Definition fdh : R := / 10000000.
(** finite difference gradient at one point, function.py 203-211.  The base value is self.eval(x)
    without the keyword arguments of the call (line 204).  grad[i] = array: works only for a
    single output.  None: ValueError. *)
Definition fd_grad (F : func) (kw : kwd) (z : vec) : option vec :=
  let fx := eval1 F nokw z in
  let m := length z in
  let cols := map (fun i => vsub (eval1 F (merge (f_kw F) kw) (vadd z (vscale fdh (unit_row_ m i)))) fx) (seq 0 m) in
  if forallb (fun c => Nat.eqb (length c) 1) cols then Some (map (fun c => vget c 0 / fdh) cols) else None.
Fixpoint all_some {A : Type} (l : list (option A)) : option (list A) :=
  match l with
  | [] => Some []
  | Some a :: l' => match all_some l' with Some r => Some (a :: r) | None => None end
  | None :: _ => None
  end.

(** grad without vectorization, function.py 194-255.  [Z]: rows (a single one when [one_d]).
    None: NotImplementedError or a shape error. *)
Definition grad (F : func) (kw0 : kwd) (one_d : bool) (Z : mat) : option tens :=
  let kw := merge (f_kw F) kw0 in
  if f_fd F then
    match all_some (map (fd_grad F kw) Z) with
    | Some gs => shape_grad (fdim F) (length Z) one_d (map (fun g => [g]) gs)
    | None => None
    end
  else
    let X := map (unnormalize (f_lb F) (f_ub F)) Z in
    let D := diag (uslopes (f_lb F) (f_ub F)) in
    match f_grads F with
    | Some gs => shape_grad (fdim F) (length Z) one_d (chain D (map (fun x => concat (map (fun g => g kw x) gs)) X))
    | None =>
        match f_ret F with
        | Some rs => shape_grad (fdim F) (length Z) one_d (chain D (map (fun x => concat (map (fun r => snd (r kw x)) rs)) X))
        | None => None
        end
    end.

(** __call__ with return_grad = True and self.return_grad, without vectorization, function.py 263-293 *)
Definition call_ret (F : func) (rs : list (kwd -> vec -> vec * mat)) (kw0 : kwd) (one_d : bool) (Z : mat) : option (tens * tens) :=
  let kw := merge (f_kw F) kw0 in
  let X := map (unnormalize (f_lb F) (f_ub F)) Z in
  let D := diag (uslopes (f_lb F) (f_ub F)) in
  let fX := map (fun x => concat (map (fun r => fst (r kw x)) rs)) X in
  match shape_grad (fdim F) (length Z) one_d (chain D (map (fun x => concat (map (fun r => snd (r kw x)) rs)) X)) with
  | Some g => Some (if one_d then T1 (concat fX) else T2 fX, g)
  | None => None
  end.

(** vectorized gradients with self._grads, function.py 219-231: array of shape (functions, samples,
    dim), transposed to (samples, functions, dim) *)
Definition transpose01 (M : nat) (G : list mat) : list mat := map (fun i => map (fun g => nth i g []) G) (seq 0 M).
Definition grad_vec (F : func) (gv : list (kwd -> mat -> mat)) (kw0 : kwd) (one_d : bool) (Z : mat) : option tens :=
  let kw := merge (f_kw F) kw0 in
  let X := map (unnormalize (f_lb F) (f_ub F)) Z in
  let D := diag (uslopes (f_lb F) (f_ub F)) in
  shape_grad (fdim F) (length Z) one_d (chain D (transpose01 (length Z) (map (fun g => g kw X) gv))).
(** vectorized gradients with self.return_grad, function.py 234-242, 252-253: no transposition *)
Definition grad_vec_ret (F : func) (rv : list (kwd -> mat -> vout * mat)) (kw0 : kwd) (one_d : bool) (Z : mat) : option tens :=
  let kw := merge (f_kw F) kw0 in
  let X := map (unnormalize (f_lb F) (f_ub F)) Z in
  let D := diag (uslopes (f_lb F) (f_ub F)) in
  shape_grad (fdim F) (length Z) one_d (chain D (map (fun r => snd (r kw X)) rv)).
(** __call__ with return_grad, vectorized, function.py 268-271 and 285-293; each r[1] is (samples, dim)
    and reshape(samples, -1, dim) makes it (samples, 1, dim).  The values are np.hstack of the r[0]:
    1-d arrays are concatenated end to end *)
Definition vhstack (M : nat) (os : list vout) : option tens :=
  if forallb (fun o => match o with V1 _ => true | V2 _ => false end) os
  then Some (T1 (concat (map (fun o => match o with V1 v => v | V2 _ => [] end) os)))
  else if forallb (fun o => match o with V1 _ => false | V2 _ => true end) os
  then Some (T2 (hstack_rows M (map vrows os)))
  else None.
Definition call_vec_ret (F : func) (rv : list (kwd -> mat -> vout * mat)) (kw0 : kwd) (one_d : bool) (Z : mat) : option (option tens * option tens) :=
  let kw := merge (f_kw F) kw0 in
  let X := map (unnormalize (f_lb F) (f_ub F)) Z in
  let D := diag (uslopes (f_lb F) (f_ub F)) in
  Some (vhstack (length Z) (map (fun r => fst (r kw X)) rv),
        shape_grad (fdim F) (length Z) one_d (chain D (transpose01 (length Z) (map (fun r => snd (r kw X)) rv)))).
