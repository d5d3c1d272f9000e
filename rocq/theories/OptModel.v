(** Model of psdr/gn.py, psdr/minimax.py and psdr/seqlp.py. *)
Require Import Reals List Bool Arith.
From Verif Require Import RVec Num DomMoreModel.
Import ListNotations.
Local Open Scope R_scope.

(* ------------------------------------------------------------------ *)
(** * linesearch_armijo, gn.py 24-83 *)
(** trajectory_linear, gn.py 20-21 *)
Definition trajectory_linear (x0 p : vec) (t : R) : vec := vadd x0 (vscale t p).

(** the backtracking loop, gn.py 65-76.  [traj] and [f] return None when they raise BadStep
    (gn.py 73).  Result: first accepted (x, alpha, f x). *)
Fixpoint armijo_loop (f : vec -> option vec) (traj : vec -> vec -> R -> option vec)
    (p x0 : vec) (bt ftol dg fx0n : R) (it : nat) (alpha : R) : option (vec * R * vec) :=
  match it with
  | O => None
  | S it' =>
      match (match traj x0 p alpha with
             | None => None
             | Some x => match f x with
                         | None => None
                         | Some fx => if Rltb (norm2 fx) (fx0n + alpha * ftol * dg) then Some (x, alpha, fx) else None
                         end
             end) with
      | Some r => Some r
      | None => armijo_loop f traj p x0 bt ftol dg fx0n it' (alpha * bt)
      end
  end.
(** gn.py 53-83; [None]: the assertion on line 54 fails, or f(x0) raises *)
Definition linesearch_armijo (f : vec -> option vec) (traj : vec -> vec -> R -> option vec)
    (g p x0 : vec) (bt ftol : R) (maxiter : nat) (fx0 : option vec) : option (vec * R * vec) :=
  let dg := dot g p in
  if Rltb 0 dg then None
  else match (match fx0 with Some v => Some v | None => f x0 end) with
       | None => None
       | Some fx0v =>
           match armijo_loop f traj p x0 bt ftol dg (norm2 fx0v) maxiter 1 with
           | Some r => Some r
           | None => Some (x0, 0, fx0v)
           end
       end.

(* ------------------------------------------------------------------ *)
(** * gauss_newton, gn.py 86-267 *)
(** F.T @ y for a matrix with rows of length n *)
Definition tmv (n : nat) (A : mat) (y : vec) : vec := lincomb n A y.

(** loop state: x, f_eval, grad, normgrad, normdx, f_eval_new *)
Record gnst := mkGn { g_x : vec; g_f : vec; g_grad : vec; g_ng : R; g_ndx : R; g_fn : vec }.

Section GaussNewton.
  Variable n : nat.
  Variable f : vec -> vec.
  Variable F : vec -> mat.
  (** gnsolver; None: non-finite direction, gn.py 198-199 *)
  Variable gnsolver : mat -> vec -> option vec.
  (** linesearch(f, grad, dx, x, trajectory); None: exception *)
  Variable ls : vec -> vec -> vec -> option (vec * R * vec).
  Variable verbose : bool.
  Variables tol tolx : R.

  Inductive outcome := Exc | Next (s : gnst) | Brk (s : gnst).

  (** one pass of the loop body, gn.py 191-246.  The condition number (224-227) only feeds the
      printed output and is left out. *)
  Definition gn_body (s : gnst) : outcome :=
    match gnsolver (F (g_x s)) (g_f s) with
    | None => Exc
    | Some dx0 =>
        let dx := if Rleb 0 (dot (g_grad s) dx0) then vscale (-1) (g_grad s) else dx0 in
        match ls (g_grad s) dx (g_x s) with
        | None => Exc
        | Some (xn, alpha, fn) =>
            let inc := Rleb (norm2 (g_f s)) (norm2 fn) in
            let fe := if inc then g_f s else fn in
            let x := if inc then g_x s else xn in
            let ndx := norm2 dx in
            let grad := tmv n (F x) fn in
            let ng := if verbose then norm2 grad else g_ng s in
            let s' := mkGn x fe grad ng ndx fn in
            if Rltb ng tol then Brk s' else if Rltb ndx tolx then Brk s' else if inc then Brk s' else Next s'
        end
    end.

  (** [it]: index of the pass, [left]: passes left.  Result: last index and state *)
  Fixpoint gn_loop (left it : nat) (s : gnst) : option (nat * gnst) :=
    match left with
    | O => None
    | S l => match gn_body s with
             | Exc => None
             | Brk s' => Some (it, s')
             | Next s' => match l with O => Some (it, s') | S _ => gn_loop l (S it) s' end
             end
    end.

  (** gn.py 248-265; None: 'Stopping criteria not determined!' *)
  Definition gn_info (maxiter it : nat) (s : gnst) : option nat :=
    if Rleb (g_ng s) tol then Some 0%nat
    else if Rleb (g_ndx s) tolx then Some 1%nat
    else if Nat.eqb (S it) maxiter then Some 2%nat
    else if Rleb (norm2 (g_f s)) (norm2 (g_fn s)) then Some 3%nat
    else None.
End GaussNewton.

Definition gn_start (n : nat) (f : vec -> vec) (F : vec -> mat) (x0 : vec) : gnst :=
  let g := tmv n (F x0) (f x0) in mkGn x0 (f x0) g (norm2 g) 1 (f x0).
(** tol = max(tol*normgrad, 1e-14), gn.py 188 *)
Definition gn_tol (tol0 ng0 : R) : R := Rmax (tol0 * ng0) (/ 100000000000000).

(** result: point and status; outer None: exception *)
Definition gauss_newton (n : nat) (f : vec -> vec) (F : vec -> mat) (gnsolver : mat -> vec -> option vec)
    (ls : vec -> vec -> vec -> option (vec * R * vec)) (verbose : bool) (tol0 tolx : R) (maxiter : nat) (x0 : vec)
    : option (vec * option nat) :=
  match maxiter with
  | O => Some (x0, Some 4%nat)
  | S _ =>
      let s0 := gn_start n f F x0 in
      let tol := gn_tol tol0 (g_ng s0) in
      match gn_loop n F gnsolver ls verbose tol tolx maxiter 0 s0 with
      | None => None
      | Some (it, s) => Some (g_x s, gn_info tol tolx maxiter it s)
      end
  end.

(** the default line search of gauss_newton with its default parameters (bt_factor 1/2, ftol 1e-4,
    40 steps) and the linear trajectory *)
Definition default_ls (f : vec -> vec) (g p x : vec) : option (vec * R * vec) :=
  linesearch_armijo (fun x => Some (f x)) (fun x p t => Some (trajectory_linear x p t)) g p x (1/2) (/ 10000) 40 None.

(* ------------------------------------------------------------------ *)
(** * minimax, minimax.py 14-210 *)
(** outcome of the convex subproblem, minimax.py 159-169 *)
Inductive qp := QErr | QBad | QStep (px : vec) (pt : R).

Definition linf (x : vec) : R := fold_right (fun a m => Rmax (Rabs a) m) 0 x.

(** result of the backtracking loop: accepted (x, fx, t, factor) or stop *)
Inductive bt_res := BtAccept (x fx : vec) (t alpha : R) | BtStop | BtOut.
(** minimax.py 178-200; the boolean tells whether the last index bt_maxiter-1 was reached *)
Fixpoint mm_bt (f : vec -> vec) (traj : vec -> vec -> R -> vec) (carm tol_dx tol_df : R)
    (x px : vec) (t pt : R) (k : nat) (alpha : R) : bt_res * bool :=
  match k with
  | O => (BtOut, true)
  | S k' =>
      let last := Nat.eqb k' 0 in
      let xn := traj x px alpha in
      let fxn := f xn in
      let tn := vmax fxn in
      if Rltb (linf (vsub xn x)) tol_dx then (BtStop, last)
      else if Rleb tn (t + carm * alpha * pt) then (BtAccept xn fxn tn alpha, last)
      else if Rltb (Rabs (alpha * pt)) tol_df then (BtStop, last)
      else mm_bt f traj carm tol_dx tol_df x px t pt k' (alpha * (1/2))
  end.
(** the main loop; [solve it x fx t Delta] is the subproblem solver.  None: exception.
    Result: the list of iterates, newest first. *)
Fixpoint mm_loop (f : vec -> vec) (traj : vec -> vec -> R -> vec) (solve : vec -> vec -> R -> R -> qp)
    (carm tol_dx tol_df : R) (btmax left : nat) (x fx : vec) (t Delta : R) (hist : list vec) : option (list vec) :=
  match left with
  | O => Some hist
  | S l =>
      match solve x fx t Delta with
      | QErr => Some hist
      | QBad => None
      | QStep px pt =>
          if Rltb 0 pt then Some hist
          else match mm_bt f traj carm tol_dx tol_df x px t pt btmax 1 with
               | (BtAccept xn fxn tn al, last) =>
                   if last then Some (xn :: hist)
                   else mm_loop f traj solve carm tol_dx tol_df btmax l xn fxn tn (Delta * (2 * al)) (xn :: hist)
               | (BtStop, _) => Some hist
               | (BtOut, _) => Some hist
               end
      end
  end.
Definition minimax (f : vec -> vec) (traj : vec -> vec -> R -> vec) (solve : vec -> vec -> R -> R -> qp)
    (carm tol_dx tol_df : R) (btmax maxiter : nat) (x0 : vec) : option (list vec) :=
  mm_loop f traj solve carm tol_dx tol_df btmax maxiter x0 (f x0) (vmax (f x0)) 1 [x0].

(* ------------------------------------------------------------------ *)
(** * sequential_lp, seqlp.py 19-275 (line numbers of the file psdr/seqlp.py) *)
Inductive lp_norm := N1 | N2 | NInf_ | NHinge | NNone.
(** objfun, seqlp.py 78-83 *)
Definition objfun (nm : lp_norm) (fx : vec) : R :=
  match nm with
  | N1 => vsum (map Rabs fx)
  | N2 => norm2 fx
  | NInf_ => linf fx
  | NHinge => vsum (map (fun a => Rmax a 0) fx)
  | NNone => vget fx 0
  end.
(** status of the linear program, seqlp.py 196-207 *)
Inductive lp := LUnb | LOpt (p : vec) | LBad.

(** np.isclose(x, x_new, rtol = tol_dx, atol = 0) for all entries, seqlp.py 217 *)
Definition all_same (tol : R) (x y : vec) : bool :=
  forallb (fun b => b) (zipw (fun a b => Rleb (Rabs (a - b)) (tol * Rabs b)) x y).

(** constraint_violation, seqlp.py 228-234: 1-norm of the entries violating the bounds on f *)
Definition viol (lb ub : option vec) (fx : vec) : R :=
  (match lb with None => 0 | Some l => vsum (zipw (fun a b => if Rleb a b then 0 else Rabs (b - a)) l fx) end) +
  (match ub with None => 0 | Some u => vsum (zipw (fun a b => if Rleb b a then 0 else Rabs (b - a)) u fx) end).

(** [l_px], [l_cv]: whether the Python variables px and constraint_violation are bound *)
Record slst := mkSl { l_x : vec; l_f : vec; l_obj : R; l_Delta : R; l_stop : bool; l_px : bool; l_cv : bool; l_hist : list vec }.

Section SeqLP.
  Variable f : vec -> vec.
  Variable nm : lp_norm.
  Variable traj : vec -> vec -> R -> vec.
  (** solution of the linearised problem at (x, fx), with trust region [Some Delta] from the
      second inner iteration on; seqlp.py 186-205 *)
  Variable solve : vec -> vec -> option R -> lp.
  Variables lb ub : option vec.
  Variables tol_dx tol_obj : R.
  Variable verbose : bool.

  (** inner loop, seqlp.py 186-251; second component: the loop variable reached bt_maxiter-1 *)
  Fixpoint sl_in (k : nat) (first : bool) (s : slst) : slst * bool :=
    match k with
    | O => (s, true)
    | S k' =>
        let last := Nat.eqb k' 0 in
        match solve (l_x s) (l_f s) (if first then None else Some (l_Delta s)) with
        | LUnb => if first then sl_in k' false s
                  else sl_in k' false (mkSl (l_x s) (l_f s) (l_obj s) (l_Delta s) true true (l_cv s) (l_hist s))
        | LOpt p =>
            let xn := traj (l_x s) p 1 in
            if all_same tol_dx (l_x s) xn
            then (mkSl (l_x s) (l_f s) (l_obj s) (l_Delta s) true true (l_cv s) (l_hist s), last)
            else
              let fn := f xn in
              let on := objfun nm fn in
              if (Rltb on (l_obj s) && Rleb (Rabs (viol lb ub fn)) (/ 10000000000))%bool
              then (mkSl xn fn on (Rmax 1 (norm2 p)) (l_stop s || Rltb (Rabs (on - l_obj s)) tol_obj) true true (xn :: l_hist s), last)
              else sl_in k' false (mkSl (l_x s) (l_f s) (l_obj s) (l_Delta s * (1/2)) (l_stop s) true true (l_hist s))
        | LBad => sl_in k' false (mkSl (l_x s) (l_f s) (l_obj s) (l_Delta s) true true (l_cv s) (l_hist s))
        end
    end.

  (** outer loop, seqlp.py 146-273; None: the verbose print reads an unbound variable *)
  Fixpoint sl_loop (btmax left : nat) (s : slst) : option slst :=
    match left with
    | O => Some s
    | S l =>
        let (s', last) := sl_in btmax true (mkSl (l_x s) (l_f s) (l_obj s) (l_Delta s) false (l_px s) (l_cv s) (l_hist s)) in
        if (verbose && negb (l_px s' && l_cv s'))%bool then None
        else if (l_stop s' || last)%bool then Some s' else sl_loop btmax l s'
    end.
End SeqLP.

Definition sequential_lp (f : vec -> vec) (nm : lp_norm) (traj : vec -> vec -> R -> vec) (solve : vec -> vec -> option R -> lp)
    (lb ub : option vec) (tol_dx tol_obj : R) (verbose : bool) (btmax maxiter : nat) (x0 : vec) : option slst :=
  sl_loop f nm traj solve lb ub tol_dx tol_obj verbose btmax maxiter (mkSl x0 (f x0) (objfun nm (f x0)) 1 false false false [x0]).
