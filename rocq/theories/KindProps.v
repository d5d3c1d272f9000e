(** Generated by tools/mkprops.py from tools/props/KindProps.spec: the property theorems. *)
Require Import Reals List Bool Arith ZArith ZArith.
From Verif Require Import RVec Num Sums DomModel DomSpec DomProofs DomMoreModel SweepProofs HullProofs TensorModel TensorProofs ArnoldiMoreProofs MatLib SpecProofs LipModel SdpProofs GrassLib GpProofs Compact LinLs Spectral HullConvModel HullConvMore HullBasis GnStep KindModel KindProofs KindDims.
Import ListNotations.
Local Open Scope R_scope.

Local Open Scope R_scope.

(** kinds *)
Theorem C147_box : forall k x, is_box k = true -> Forall bounds_wf (kleaves k) -> (kmember k x <-> length x = klen k /\ sat_bounds (klb k) (kub k) 0 x).
Proof. exact box_sound. Qed.
Print Assumptions C147_box.

Example C147_box_ex : is_box (KProd [KLin (mkDom Box 1 [Fin 0] [Fin 1] [] [] [] [] []); KLin (mkDom Box 1 [Fin 2] [PInf] [] [] [] [] [])]) = true /\ Forall bounds_wf (kleaves (KProd [KLin (mkDom Box 1 [Fin 0] [Fin 1] [] [] [] [] []); KLin (mkDom Box 1 [Fin 2] [PInf] [] [] [] [] [])])).
Proof. exact ex_box. Qed.

Theorem C147_nested : forall k, (is_box k = true -> is_linineq k = true) /\ (is_linineq k = true -> is_linquad k = true).
Proof. exact kinds_nested. Qed.
Print Assumptions C147_nested.

Theorem C147_linineq : forall k x, is_linineq k = true -> (forall h, ~ In (KHull h) (kleaves k)) -> (kmember k x <-> kmember (match k with KLeaf k => KLeaf (KLin (mkDom LinIneq (klen1 k) (lb (kcon k)) (ub (kcon k)) (dA (kcon k)) (db (kcon k)) (dAeq (kcon k)) (dbeq (kcon k)) []))
  | KProd ks => KProd (map (fun k => KLin (mkDom LinIneq (klen1 k) (lb (kcon k)) (ub (kcon k)) (dA (kcon k)) (db (kcon k)) (dAeq (kcon k)) (dbeq (kcon k)) [])) ks) end) x).
Proof. exact linineq_sound. Qed.
Print Assumptions C147_linineq.

Theorem C147_hull_refuted : (forall k, is_linquad k = true) /\ exists h x, is_linineq (KLeaf (KHull h)) = true /\ member (hcon h) x /\ ~ hull_member h x.
Proof. exact hull_kind_refuted. Qed.
Print Assumptions C147_hull_refuted.

(** dimension *)
Theorem C147_dims_unique : forall P m d d', dims P m d -> dims P m d' -> d = d'.
Proof. exact dims_unique. Qed.
Print Assumptions C147_dims_unique.

Theorem C147_affine_dims : forall m A b (C : vec -> Prop) x0 e, Forall (fun a => length a = m) A -> length A = length b -> length x0 = m -> sat_eq0 A b x0 -> 0 < e -> (forall y, length y = m -> norm2 (vsub y x0) <= e -> C y) ->
  exists d, dims (fun x => length x = m /\ sat_eq0 A b x /\ C x) m d /\ (m <= d + length A)%nat /\ ((d + length A)%nat = m <-> irr m A).
Proof. exact affine_dims. Qed.
Print Assumptions C147_affine_dims.

Theorem C147_intrinsic : forall d s x0, rows_wf d -> 0 < s -> inner d s x0 ->
  exists n z, dims (member d) (dim d) n /\ intrinsic (KLeaf (KLin d)) = Some z /\ (z <= Z.of_nat n)%Z /\ (z = Z.of_nat n <-> irr (dim d) (dAeq d)).
Proof. exact intrinsic_leaf. Qed.
Print Assumptions C147_intrinsic.

Example C147_intrinsic_ex : let d := mkDom LinQuad 2 [NInf; NInf] [PInf; Fin 2] [[1; 1]] [1] [[1; -1]] [0] [mkQuad [[1; 0]; [0; 1]] [0; 0] 1] in
  rows_wf d /\ inner d 1 [0; 0] /\ irr 2 (dAeq d) /\ intrinsic (KLeaf (KLin d)) = Some 1%Z.
Proof. exact ex_intrinsic. Qed.

Theorem C147_dims_times : forall P P' m m' d d', dims P m d -> dims P' m' d' -> dims (times m P P') (m + m') (d + d').
Proof. exact dims_times. Qed.
Print Assumptions C147_dims_times.

Theorem C147_prod : forall ks, ks <> [] -> intrinsic (KProd ks) = Some (fold_right Z.add 0%Z (map (fun k => Z.of_nat (klen1 k) - Z.of_nat (length (dAeq (kcon k))))%Z ks)).
Proof. exact intrinsic_prod. Qed.
Print Assumptions C147_prod.

Theorem C147_prod_exact : forall ks, ks <> [] -> (forall k, In k ks -> exists n, dims (kmember1 k) (klen1 k) n /\ intrinsic (KLeaf k) = Some (Z.of_nat n)) ->
  exists n, dims (kmember (KProd ks)) (klen (KProd ks)) n /\ intrinsic (KProd ks) = Some (Z.of_nat n).
Proof. exact intrinsic_prod_exact. Qed.
Print Assumptions C147_prod_exact.

Theorem C147_intrinsic_refuted : (exists d, rows_wf d /\ dims (member d) (dim d) 0 /\ intrinsic (KLeaf (KLin d)) = Some (-1)%Z) /\
  (exists x, length x = 2%nat /\ dims (member (mkDom Point 2 (map Fin x) (map Fin x) [] [] [] [] [])) 2 0 /\ intrinsic (KLeaf (KLin (mkDom Point 2 (map Fin x) (map Fin x) [] [] [] [] []))) = Some 2%Z) /\
  (exists h, hX h <> [] /\ dims (hull_member h) 1 0 /\ intrinsic (KLeaf (KHull h)) = Some 1%Z).
Proof. exact intrinsic_refuted. Qed.
Print Assumptions C147_intrinsic_refuted.
