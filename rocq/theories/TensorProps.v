(** Properties C09, C10 and the tensor-product part of C04, C05, C06. *)
Require Import Reals Lra Lia List Bool.
From Verif Require Import RVec Num DomModel DomSpec DomProofs NormProofs DomOpsProofs DomExamples TensorModel TensorProofs.
Import ListNotations.
Local Open Scope R_scope.

(* ------------------------------ C09 ------------------------------ *)
(** [tree_mem]: the point is a concatenation, in order, of points of the factors, for any nesting *)
Theorem C09_membership_blockwise : forall t x tol, einside (build t) x tol = true <-> tree_mem tol t x.
Proof. exact tensor_membership. Qed.
Print Assumptions C09_membership_blockwise.

Theorem C09_dimension : forall t, elen (build t) = tree_dim t.
Proof. exact tensor_dim. Qed.
Print Assumptions C09_dimension.

Theorem C09_associative : forall a b c, tmul (tmul a b) c = tmul a (tmul b c).
Proof. exact tensor_assoc. Qed.
Print Assumptions C09_associative.

Example C09_case : tree_mem (1/100) (TP [TL ex_leaf1; TP [TL ex_leaf2; TL ex_leaf1]]) [1; 1; 2; 0].
Proof. exact ex_tree_mem. Qed.

(* ------------------------------ C10 ------------------------------ *)
Theorem C10_normalize_blocks : forall fs bs, Forall2 (fun (f : leaf) (b : vec) => length b = dlen f) fs bs ->
  tnormalize fs (concat bs) = concat (zipw (fun f b => normalize (lnlb f) (lnub f) b) fs bs).
Proof. exact tensor_normalize_blocks. Qed.
Print Assumptions C10_normalize_blocks.

Theorem C10_unnormalize_blocks : forall fs bs, Forall2 (fun (f : leaf) (b : vec) => length b = dlen f) fs bs ->
  tunnormalize fs (concat bs) = concat (zipw (fun f b => unnormalize (lnlb f) (lnub f) b) fs bs).
Proof. exact tensor_unnormalize_blocks. Qed.
Print Assumptions C10_unnormalize_blocks.

Theorem C10_inverse : forall fs x, Forall leaf_ok fs -> length x = elen (Tensor fs) ->
  tunnormalize fs (tnormalize fs x) = x /\ tnormalize fs (tunnormalize fs x) = x.
Proof. exact tensor_unnormalize_normalize. Qed.
Print Assumptions C10_inverse.

Example C10_case : Forall leaf_ok [ex_leaf1; ex_leaf2] /\ length [1/2; 2; 0] = elen (Tensor [ex_leaf1; ex_leaf2]) /\
  tnormalize [ex_leaf1; ex_leaf2] [1/2; 2; 0] = [0; 1; -1].
Proof.
  split; [repeat constructor|]. split; [reflexivity|].
  unfold tnormalize, slices, ex_leaf1, ex_leaf2. simpl.
  unfold slice, normalize, center, nslopes, center_i, nslope; simpl. rb. unfold mv, diag; simpl; vc.
  repeat (apply (f_equal2 (@cons R)); [field|]); reflexivity.
Qed.

(* ------------------------ C04 / C05 / C06 for tensor products ------------------------ *)
Theorem C04_tensor_partial : forall nb fs x, Forall leaf_norm_ok fs -> length x = elen (Tensor fs) ->
  (tmember (tnormalized nb fs) (tnormalize fs x) <-> tmember fs x).
Proof. exact tensor_normalized_member. Qed.
Print Assumptions C04_tensor_partial.

Example C04_tensor_case : Forall leaf_norm_ok [ex_leaf1; ex_leaf2].
Proof. exact ex_leaf_norm. Qed.

Theorem C05_tensor_add_constraints_partial : forall fs c x tol, Forall leaf_lin fs -> Forall (fun f => proper (ldom f)) fs ->
  dom_wf c -> proper c -> dim c = elen (Tensor fs) -> dcls c <> Point ->
  inside1 (tensor_add_constraints fs c) x tol = (einside (Tensor fs) x tol && inside1 c x tol)%bool.
Proof. exact tensor_add_inside. Qed.
Print Assumptions C05_tensor_add_constraints_partial.

Example C05_tensor_case : Forall leaf_lin [ex_leaf1; ex_leaf2] /\ Forall (fun f => proper (ldom f)) [ex_leaf1; ex_leaf2].
Proof. exact ex_leaf_lin. Qed.

(** with an ellipsoidal factor the added constraints replace the ellipsoid *)
Theorem C05_tensor_refuted : exists fs c x tol, Forall (fun f => dom_wf (ldom f) /\ dcls (ldom f) <> Point) fs /\
  Forall (fun f => proper (ldom f)) fs /\ dom_wf c /\ proper c /\ dim c = elen (Tensor fs) /\ 0 < tol /\
  einside (Tensor fs) x tol = false /\ inside1 (tensor_add_constraints fs c) x tol = true.
Proof. exact tensor_add_refuted. Qed.
Print Assumptions C05_tensor_refuted.

(** the extent of a tensor product is exact whenever the extents of its factors are *)
Theorem C06_tensor_extent : forall stol (ts : list (leaf * (vec * vec))), ts <> [] ->
  Forall (fun t => exact_step (fst t) stol (fst (snd t)) (snd (snd t))) ts ->
  let fs := map fst ts in
  let x := concat (map (fun t => fst (snd t)) ts) in
  let p := concat (map (fun t => snd (snd t)) ts) in
  exists e, tensor_extent fs stol x p = Some e /\
    forall al, 0 <= al -> (tmember fs (along x p al) <-> nleb (Fin al) e = true).
Proof. exact tensor_extent_exact. Qed.
Print Assumptions C06_tensor_extent.

Example C06_tensor_case : Forall (fun t => exact_step (fst t) (1/100) (fst (snd t)) (snd (snd t)))
  [ (mkLeaf (box_of [0] [1]) [] [], ([1/2], [1])); (mkLeaf (box_of [0;0] [2;3]) [] [], ([1;1], [-1;2])) ].
Proof. exact ex_tensor_steps. Qed.
