(** Specification of domains as sets of points, independent of the code's helpers. *)
Require Import Reals List.
From Verif Require Import RVec Num DomModel.
Local Open Scope R_scope.

(** every finite lower/upper bound holds with slack [tol] *)
Definition sat_bounds (l u : list num) (tol : R) (x : vec) : Prop :=
  forall i, (forall v, nth_error l i = Some (Fin v) -> v - tol <= vget x i) /\
            (forall v, nth_error u i = Some (Fin v) -> vget x i <= v + tol).

(** rows a.x <= c with slack *)
Definition sat_ineq (A : mat) (b : vec) (tol : R) (x : vec) : Prop :=
  forall k a c, nth_error A k = Some a -> nth_error b k = Some c -> dot a x <= c + tol.

(** rows |a.x - c| < tol *)
Definition sat_eq (A : mat) (b : vec) (tol : R) (x : vec) : Prop :=
  forall k a c, nth_error A k = Some a -> nth_error b k = Some c -> Rabs (dot a x - c) < tol.

(** rows a.x = c *)
Definition sat_eq0 (A : mat) (b : vec) (x : vec) : Prop :=
  forall k a c, nth_error A k = Some a -> nth_error b k = Some c -> dot a x = c.

Definition sat_quad (qs : list quad) (tol : R) (x : vec) : Prop :=
  forall q, In q qs -> norm2 (mv (qL q) (vsub x (qy q))) <= qrho q + tol.

(** x satisfies all constraints relaxed by tol (all classes except Point) *)
Definition relaxed (d : dom) (tol : R) (x : vec) : Prop :=
  length x = dim d /\ sat_bounds (lb d) (ub d) tol x /\ sat_ineq (dA d) (db d) tol x /\
  sat_eq (dAeq d) (dbeq d) tol x /\ sat_quad (quads d) tol x.

(** x is in the mathematical set (exact constraints) *)
Definition member (d : dom) (x : vec) : Prop :=
  length x = dim d /\ sat_bounds (lb d) (ub d) 0 x /\ sat_ineq (dA d) (db d) 0 x /\
  sat_eq0 (dAeq d) (dbeq d) x /\ sat_quad (quads d) 0 x.

(** x + a p *)
Definition along (x p : vec) (a : R) : vec := vadd x (vscale a p).
