(** Generated by tools/mkprops.py from tools/props/CtorProps.spec: the property theorems. *)
Require Import Reals List Bool Arith ZArith.
From Verif Require Import RVec Num DomModel DomSpec DomProofs DomOpsProofs CtorModel CtorProofs.
Import ListNotations.
Local Open Scope R_scope.

Local Open Scope R_scope.

(** C151: constructing domains from their arguments *)
Theorem C151_points : forall a d, rect a -> linquad_new LinQuad a = Ok d -> consistent (dim d) a /\ dom_wf d /\
  (forall x, member d x <-> length x = dim d /\ satisfies eq 0 a x) /\
  (forall tol x, inside1 d x tol = true <-> length x = dim d /\ satisfies (near tol) tol a x).
Proof. exact new_points. Qed.
Print Assumptions C151_points.

Example C151_case : rect disc_args /\ tells_dim disc_args /\ consistent 2 disc_args /\ exists d, linquad_new LinQuad disc_args = Ok d.
Proof. exact disc_case. Qed.

Theorem C151_accepts : forall c a, (exists d, linquad_new c a = Ok d) <-> tells_dim a /\ exists m, consistent m a.
Proof. exact new_accepts. Qed.
Print Assumptions C151_accepts.

Theorem C151_linineq : forall A b l u Aeq beq d, (forall M, A = Some M -> rect1 M) -> (forall M, Aeq = Some M -> rect1 M) -> linineq_new A b l u Aeq beq = Ok d ->
  dom_wf d /\ quads d = [] /\ forall x, member d x <-> length x = dim d /\ satisfies eq 0 (mkArgs A b l u Aeq beq None None None) x.
Proof. exact linineq_points. Qed.
Print Assumptions C151_linineq.

Example C151_linineq_case : exists d, linineq_new (Some (MMat 2 [[1; 1]; [1; -1]])) (Some (RVec1 [1; 0])) None None (Some (MVec [0; 1])) (Some (RNum 0)) = Ok d /\ (forall M, Some (MMat 2 [[1; 1]; [1; -1]]) = Some M -> rect1 M) /\ member d [-1; 0] /\ ~ member d [1; 0].
Proof. exact linineq_case. Qed.

Theorem C151_box : forall l u d, box_new l u = Ok d -> dom_wf d /\ forall x, member d x <-> length x = dim d /\
  (forall i v, bound_entry l i = Some (Fin v) -> v <= vget x i) /\ forall i v, bound_entry u i = Some (Fin v) -> vget x i <= v.
Proof. exact box_points. Qed.
Print Assumptions C151_box.

Example C151_box_case : exists d, box_new (Some (BNum (Fin (-1)))) (Some (BVec [Fin 2])) = Ok d /\ member d [1] /\ ~ member d [3].
Proof. exact box_case. Qed.

Theorem C151_point : forall x, exists d, point_new x = Ok d /\ dom_wf d /\ forall y, member d y <-> y = x.
Proof. exact point_points. Qed.
Print Assumptions C151_point.

Theorem C151_scalars : forall c A b l u Ae be Ls ys rhos, linquad_new c (mkArgs A b l u Ae be Ls ys rhos) = linquad_new c (mkArgs A (vec_rhs b) (vec_bound l) (vec_bound u) Ae (vec_rhs be) Ls ys rhos).
Proof. exact new_scalars. Qed.
Print Assumptions C151_scalars.

Theorem C151_again : forall d, dom_wf d -> Forall (fun q => qL q <> []) (quads d) -> linquad_new (dcls d) (attributes d) = Ok d.
Proof. exact new_again. Qed.
Print Assumptions C151_again.

Example C151_again_case : exists d, linquad_new LinQuad disc_args = Ok d /\ dom_wf d /\ Forall (fun q => qL q <> []) (quads d) /\ quads d <> [].
Proof. exact again_case. Qed.

Theorem C151_add : forall d a e, dom_wf d -> proper d -> dcls d <> Point -> rect a -> proper_args a -> add_args d a = Ok e ->
  dim e = dim d /\ dom_wf e /\ forall tol x, inside1 e x tol = true <-> inside1 d x tol = true /\ satisfies (near tol) tol a x.
Proof. exact add_args_points. Qed.
Print Assumptions C151_add.

Example C151_add_case : exists d a e, dom_wf d /\ proper d /\ dcls d <> Point /\ rect a /\ proper_args a /\ add_args d a = Ok e /\ a_A a <> None.
Proof. exact add_case. Qed.

(** a single inequality as a vector: accepted beside bounds, TypeError without *)
Theorem C151_row_refuted : exists v r, (exists d, linineq_new (Some (MVec v)) (Some (RNum r)) (Some (BVec [NInf; NInf])) None None None = Ok d /\ forall x, member d x <-> length x = 2%nat /\ dot v x <= r) /\
  linineq_new (Some (MVec v)) (Some (RNum r)) None None None None = Err EType /\
  exists d, linineq_new (Some (MMat 2 [v])) (Some (RNum r)) None None None None = Ok d.
Proof. exact row_refuted. Qed.
Print Assumptions C151_row_refuted.

(** no rows at all *)
Theorem C151_empty_refuted : forall m, linineq_new (Some (MMat m [])) (Some (RVec1 [])) None None None None = Err EIndex /\
  (exists d, linineq_new (Some (MMat m [])) (Some (RVec1 [])) (Some (BVec (repeat NInf m))) None None None = Ok d) /\
  linineq_new (Some (MVec [])) (Some (RVec1 [])) (Some (BVec (repeat NInf m))) None None None = Err EIndex.
Proof. exact empty_refuted. Qed.
Print Assumptions C151_empty_refuted.

(** accepted arguments may describe the empty set *)
Theorem C151_crossing_refuted : exists l u d, box_new (Some l) (Some u) = Ok d /\ forall x, ~ member d x.
Proof. exact crossing_refuted. Qed.
Print Assumptions C151_crossing_refuted.

(** a ball of radius zero is refused although it is a point *)
Theorem C151_ball : forall c m a y, linquad_new c (mkArgs None None None None None None (Some [MMat m [a]]) (Some [y]) (Some [0])) = Err EAssert.
Proof. exact degenerate_ball. Qed.
Print Assumptions C151_ball.
