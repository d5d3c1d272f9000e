(** Model of the constructors of LinQuadDomain, LinIneqDomain, BoxDomain and PointDomain (psdr/domains/linquad.py 63-207, linineq.py 46-47,
    box.py 27-28, point.py 22-29).  Names are those of NamesModel.v and are left out, solver arguments too.  Arguments are numbers or
    rectangular arrays (a list of rows of different lengths is not an argument); integer and floating entries are not distinguished. *)
Require Import Reals List Bool Arith.
From Verif Require Import RVec Num DomModel.
Import ListNotations.
Local Open Scope R_scope.

(** a bound: a number, or a one-dimensional array *)
Inductive barg := BNum (v : num) | BVec (l : list num).
(** a matrix: a one-dimensional array, or a two-dimensional one with k columns *)
Inductive marg := MVec (v : vec) | MMat (k : nat) (rows : mat).
(** a right hand side: number, one- or two-dimensional array *)
Inductive rarg := RNum (r : R) | RVec1 (v : vec) | RMat.
(** what the constructor raises: Exception of line 120, TypeError of len(number), IndexError, AssertionError *)
Inductive cerr := ENoDim | EType | EIndex | EAssert.
Inductive res (A : Type) := Ok (a : A) | Err (e : cerr).
Arguments Ok {A} a. Arguments Err {A} e.
Definition bindr {A B : Type} (r : res A) (f : A -> res B) : res B := match r with Ok a => f a | Err e => Err e end.

Definition blen (a : barg) : nat := match a with BNum _ => 1%nat | BVec l => length l end.
Definition blist (a : barg) : list num := match a with BNum v => [v] | BVec l => l end.
(** len(A[0]) *)
Definition cols0 (a : marg) : res nat :=
  match a with
  | MVec [] => Err EIndex
  | MVec (_ :: _) => Err EType
  | MMat _ [] => Err EIndex
  | MMat k (_ :: _) => Ok k
  end.
(** _init_dim, linquad.py 101-122 *)
Definition init_dim (l u : option barg) (A Aeq : option marg) (Ls : option (list marg)) : res nat :=
  match l with Some a => Ok (blen a) | None =>
  match u with Some a => Ok (blen a) | None =>
  match A with Some M => cols0 M | None =>
  match Aeq with Some M => cols0 M | None =>
  match Ls with Some [] => Err EIndex | Some (M :: _) => cols0 M | None => Err ENoDim end end end end end.
(** _init_lb and _init_ub, linquad.py 125-142; [d] is -inf or inf *)
Definition init_bound (d : num) (m : nat) (a : option barg) : res (list num) :=
  match a with
  | None => Ok (repeat d m)
  | Some a => if Nat.eqb (length (blist a)) m then Ok (blist a) else Err EAssert
  end.
(** _init_ineq and _init_eq, linquad.py 144-184 *)
Definition init_lin (m : nat) (A : option marg) (b : option rarg) : res (mat * vec) :=
  match A, b with
  | None, None => Ok ([], [])
  | Some A, Some b =>
      bindr (match b with RNum r => Ok [r] | RVec1 v => Ok v | RMat => Err EAssert end) (fun b =>
      bindr (match A with
             | MVec v => if Nat.eqb (length b) 1 then Ok (length v, [v]) else Err EIndex
             | MMat k rows => Ok (k, rows)
             end) (fun kr =>
      if Nat.eqb (fst kr) m then if Nat.eqb (length (snd kr)) (length b) then Ok (snd kr, b) else Err EAssert else Err EAssert))
  | _, _ => Err EAssert
  end.
(** one pass of the loop in _init_quad, linquad.py 195-203 *)
Definition init_quad1 (m : nat) (M : marg) (y : vec) (rho : R) : res quad :=
  bindr (cols0 M) (fun k =>
  if Nat.eqb k m then if Nat.eqb (length y) m then if Rltb 0 rho then
    Ok (mkQuad (match M with MMat _ rows => rows | MVec v => [v] end) y rho) else Err EAssert else Err EAssert else Err EAssert).
Fixpoint init_quads (m : nat) (Ls : list marg) (ys : mat) (rhos : vec) : res (list quad) :=
  match Ls, ys, rhos with
  | M :: Ls', y :: ys', rho :: rhos' => bindr (init_quad1 m M y rho) (fun q => bindr (init_quads m Ls' ys' rhos') (fun qs => Ok (q :: qs)))
  | _, _, _ => Ok []
  end.
(** _init_quad, linquad.py 186-207 *)
Definition init_quad (m : nat) (Ls : option (list marg)) (ys : option mat) (rhos : option vec) : res (list quad) :=
  match Ls, ys, rhos with
  | None, None, None => Ok []
  | Some Ls, Some ys, Some rhos =>
      if (Nat.eqb (length Ls) (length ys) && Nat.eqb (length ys) (length rhos))%bool then init_quads m Ls ys rhos else Err EAssert
  | _, _, _ => Err EAssert
  end.
(** the arguments of LinQuadDomain *)
Record cargs := mkArgs { a_A : option marg; a_b : option rarg; a_lb : option barg; a_ub : option barg; a_Aeq : option marg; a_beq : option rarg;
  a_Ls : option (list marg); a_ys : option mat; a_rhos : option vec }.
(** the constraints for a given dimension, linquad.py 74-78 and 332-336; [c] is the class of the object *)
Definition init_all (c : cls) (m : nat) (a : cargs) : res dom :=
  bindr (init_bound NInf m (a_lb a)) (fun l =>
  bindr (init_bound PInf m (a_ub a)) (fun u =>
  bindr (init_lin m (a_A a) (a_b a)) (fun Ab =>
  bindr (init_lin m (a_Aeq a) (a_beq a)) (fun AbE =>
  bindr (init_quad m (a_Ls a) (a_ys a) (a_rhos a)) (fun qs =>
  Ok (mkDom c m l u (fst Ab) (snd Ab) (fst AbE) (snd AbE) qs)))))).
(** LinQuadDomain.__init__, linquad.py 63-83 *)
Definition linquad_new (c : cls) (a : cargs) : res dom := bindr (init_dim (a_lb a) (a_ub a) (a_A a) (a_Aeq a) (a_Ls a)) (fun m => init_all c m a).
(** add_constraints with its arguments, linquad.py 328-360; the update of the constraints is [add_constraints] of DomModel.v *)
Definition add_args (d : dom) (a : cargs) : res dom := bindr (init_all LinQuad (dim d) a) (fun c => Ok (add_constraints d c)).
(** LinIneqDomain.__init__, linineq.py 46-47 *)
Definition linineq_new (A : option marg) (b : option rarg) (l u : option barg) (Aeq : option marg) (beq : option rarg) : res dom :=
  linquad_new LinIneq (mkArgs A b l u Aeq beq None None None).
(** BoxDomain.__init__, box.py 27-28 *)
Definition box_new (l u : option barg) : res dom := linquad_new Box (mkArgs None None l u None None None None None).
(** PointDomain.__init__, point.py 22-29; [x] is np.array(x).flatten() *)
Definition point_new (x : vec) : res dom := linquad_new Point (mkArgs None None (Some (BVec (map Fin x))) (Some (BVec (map Fin x))) None None None None None).
(** the arguments given by the attributes of an existing domain, as in add_constraints (linquad.py 350-354) and _normalized_domain
    (linquad.py 247-252): the arrays have [dim] columns *)
Definition attributes (d : dom) : cargs :=
  mkArgs (Some (MMat (dim d) (dA d))) (Some (RVec1 (db d))) (Some (BVec (lb d))) (Some (BVec (ub d))) (Some (MMat (dim d) (dAeq d))) (Some (RVec1 (dbeq d)))
    (Some (map (fun q => MMat (dim d) (qL q)) (quads d))) (Some (map qy (quads d))) (Some (map qrho (quads d))).
