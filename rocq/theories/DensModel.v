(** Model of volume (euclidean.py 801-813) and of the weights quadrature_rule makes from it (790-799). *)
Require Import Reals List Bool Arith.
From Verif Require Import RVec Num DomModel DomMoreModel.
Import ListNotations.
Local Open Scope R_scope.

(** np.prod over floats *)
Definition nprod (x : list num) : num := fold_right nmul (Fin 1) x.
(** _is_box_domain, euclidean.py 1013-1014 *)
Definition is_box_domain (d : dom) : bool := (Nat.eqb (length (quads d)) 0 && Nat.eqb (length (db d)) 0 && Nat.eqb (length (dbeq d)) 0)%bool.
(** np.sum(self.isinside(Xt)) *)
Definition count_inside (d : dom) (tol : R) (Xt : list vec) : nat := length (filter (fun x => inside1 d x tol) Xt).
(** volume, euclidean.py 801-813; [Xt] the N points drawn from np.random.uniform(norm_lb, norm_ub).  The cache of results (lru_cache) is left out. *)
Definition volume (d : dom) (nlb nub : list num) (tol : R) (Xt : list vec) : num :=
  if is_box_domain d then nprod (zipw nsub (ub d) (lb d))
  else nmul (nprod (zipw nsub nub nlb)) (Fin (INR (count_inside d tol Xt) / INR (length Xt))).
(** the weights of the Monte Carlo rule, euclidean.py 792-799: w = (1./N)*np.ones(N); w *= vol *)
Definition mc_weights_num (N : nat) (vol : num) : list num := repeat (nmul (Fin (1 / INR N)) vol) N.
