(** Model of the kinds of domains: the properties is_linquad_domain, is_linineq_domain, is_box_domain (domain.py 28-54, euclidean.py 1007-1014, tensor.py 44-51,
    convexhull.py 171-172) and intrinsic_dimension (euclidean.py 444-447). *)
Require Import Reals List Bool Arith ZArith.
From Verif Require Import RVec Num DomModel DomMoreModel.
Import ListNotations.
Local Open Scope R_scope.

(** A domain that is not a product: one described by [dom] (LinQuad, LinIneq, Box, Point, Uniform, LogNormal, Normal, Unbounded: they inherit the predicates of
    EuclideanDomain) or a ConvexHullDomain *)
Inductive kleaf := KLin (d : dom) | KHull (h : hull).
Inductive kdom := KLeaf (k : kleaf) | KProd (ks : list kleaf).
Definition kcon (k : kleaf) : dom := match k with KLin d => d | KHull h => hcon h end.
Definition klen1 (k : kleaf) : nat := dim (kcon k).
(** _is_linquad_domain, euclidean.py 1007-1008 *)
Definition leaf_linquad (k : kleaf) : bool := true.
(** _is_linineq_domain, euclidean.py 1010-1011: len(self.Ls) == 0 *)
Definition leaf_linineq (k : kleaf) : bool := Nat.eqb (length (quads (kcon k))) 0.
(** _is_box_domain, euclidean.py 1013-1014; convexhull.py 171-172 *)
Definition leaf_box (k : kleaf) : bool :=
  match k with
  | KLin d => (Nat.eqb (length (quads d)) 0 && Nat.eqb (length (db d)) 0 && Nat.eqb (length (dbeq d)) 0)%bool
  | KHull _ => false
  end.
(** products, tensor.py 44-51: all of the factors *)
Definition kall (p : kleaf -> bool) (k : kdom) : bool := match k with KLeaf k => p k | KProd ks => forallb p ks end.
Definition is_linquad : kdom -> bool := kall leaf_linquad.
Definition is_linineq : kdom -> bool := kall leaf_linineq.
Definition is_box : kdom -> bool := kall leaf_box.
(** __len__ *)
Definition klen (k : kdom) : nat := match k with KLeaf k => klen1 k | KProd ks => fold_right (fun k n => (klen1 k + n)%nat) O ks end.
(** lb, ub: the attributes, concatenated for products (tensor.py 129-135) *)
Definition klb (k : kdom) : list num := match k with KLeaf k => lb (kcon k) | KProd ks => concat (map (fun k => lb (kcon k)) ks) end.
Definition kub (k : kdom) : list num := match k with KLeaf k => ub (kcon k) | KProd ks => concat (map (fun k => ub (kcon k)) ks) end.
(** intrinsic_dimension: len(self) - self.A_eq.shape[0]; A_eq of a product stacks the rows of the factors (tensor.py 150-157); of no factors: ValueError (None) *)
Definition intrinsic (k : kdom) : option Z :=
  match k with
  | KLeaf k => Some (Z.of_nat (klen1 k) - Z.of_nat (length (dAeq (kcon k))))%Z
  | KProd [] => None
  | KProd ks => Some (Z.of_nat (klen (KProd ks)) - Z.of_nat (length (concat (map (fun k => dAeq (kcon k)) ks))))%Z
  end.
