(** Model of psdr/domains/tensor.py. *)
Require Import Reals List Bool Arith.
From Verif Require Import RVec Num DomModel.
Import ListNotations.
Local Open Scope R_scope.

(** A factor that is not itself a tensor product: its constraint data and the normalization
    bounds [norm_lb], [norm_ub] of that object.  [dlen] is its __len__. *)
Record leaf := mkLeaf { ldom : dom; lnlb : list num; lnub : list num }.
Definition dlen (f : leaf) : nat := dim (ldom f).

(** Any domain object: a plain domain, or a TensorProductDomain with its [_domains]. *)
Inductive edom := Leaf (f : leaf) | Tensor (fs : list leaf).

(** TensorProductDomain.__init__, tensor.py 22-35: sub-domains that are tensor products are
    flattened into their factors.  Solver keyword arguments dropped. *)
Definition mk_tensor (ds : list edom) : edom :=
  Tensor (fold_left (fun acc d => match d with
                                  | Tensor fs => acc ++ fs
                                  | Leaf f => acc ++ [f]
                                  end) ds []).

(** __mul__, euclidean.py 557-561. *)
Definition tmul (a b : edom) : edom := mk_tensor [a; b].

(** __len__, tensor.py 83-84 and euclidean.py 66-76. *)
Definition elen (e : edom) : nat :=
  match e with Leaf f => dlen f | Tensor fs => fold_right (fun f n => dlen f + n)%nat O fs end.

(** _slices, tensor.py 57-63: running start/stop. *)
Fixpoint slices_from (start stop : nat) (fs : list leaf) : list (nat * nat) :=
  match fs with
  | [] => []
  | f :: fs' => let stop' := (stop + dlen f)%nat in (start, stop') :: slices_from (start + dlen f) stop' fs'
  end.
Definition slices (fs : list leaf) : list (nat * nat) := slices_from 0 0 fs.

(** x[start:stop] *)
Definition slice (J : nat * nat) (x : vec) : vec := firstn (snd J - fst J) (skipn (fst J) x).

(** value of dom.isinside(X[:,I], tol) as an array (the 2-d branch of euclidean.py 507-511) *)
Definition leaf_isinside (f : leaf) (k : nat) (X : mat) (tol : R) : list bool :=
  match isinside (ldom f) (Arr2 k X) tol with BArr l => l | Scalar b => map (fun _ => b) X end.

(** TensorProductDomain._isinside, tensor.py 71-76. *)
Definition tensor_isinside (fs : list leaf) (X : mat) (tol : R) : list bool :=
  fold_left (fun inside fI =>
      let '(f, J) := fI in
      band inside (leaf_isinside f (snd J - fst J) (map (slice J) X) tol))
    (combine fs (slices fs)) (map (fun _ => true) X).

(** isinside of a single point, euclidean.py 493-506. *)
Definition einside (e : edom) (x : vec) (tol : R) : bool :=
  match e with
  | Leaf f => inside1 (ldom f) x tol
  | Tensor fs => if Nat.eqb (length x) (elen e) then forallb (fun b => b) (tensor_isinside fs [x] tol) else false
  end.

(** TensorProductDomain._normalize / _unnormalize on one row, tensor.py 91-95. *)
Definition tnormalize (fs : list leaf) (x : vec) : vec :=
  concat (map (fun fI => normalize (lnlb (fst fI)) (lnub (fst fI)) (slice (snd fI) x)) (combine fs (slices fs))).
Definition tunnormalize (fs : list leaf) (z : vec) : vec :=
  concat (map (fun fI => unnormalize (lnlb (fst fI)) (lnub (fst fI)) (slice (snd fI) z)) (combine fs (slices fs))).

(** diagonal of _normalize_der / _unnormalize_der, tensor.py 97-101 (np.diag of the hstack of the
    diagonals of the factors; the matrices are diagonal, only the diagonal is kept) *)
Definition tnslopes (fs : list leaf) : vec := concat (map (fun f => nslopes (lnlb f) (lnub f)) fs).
Definition tuslopes (fs : list leaf) : vec := concat (map (fun f => uslopes (lnlb f) (lnub f)) fs).

(** _normalized_domain, tensor.py 103-105.  The normalized factor has its own bounds as
    normalization bounds ([norm_lb] of the new object): abstracted as [nb]. *)
Definition tnormalized (nb : dom -> list num * list num) (fs : list leaf) : list leaf :=
  map (fun f => let d := normalized_domain (lnlb f) (lnub f) (ldom f) in
                mkLeaf d (fst (nb d)) (snd (nb d))) fs.

(** _extent, tensor.py 78-80: python min over the factors (first smallest). *)
Definition tensor_extent (fs : list leaf) (stol : R) (x p : vec) : option num :=
  match map (fun fI => extent_ (ldom (fst fI)) stol (slice (snd fI) x) (slice (snd fI) p)) (combine fs (slices fs)) with
  | [] => None
  | e :: es => Some (fold_left (fun m v => if nltb v m then v else m) es e)
  end.

(** lb, ub, A, b, A_eq, b_eq, tensor.py 129-161; Ls is inherited from euclidean.py 947 (empty). *)
Definition pad_row (total start : nat) (r : vec) : vec :=
  repeat 0 start ++ r ++ repeat 0 (total - start - length r).
Definition tensor_A (sel : dom -> mat) (fs : list leaf) : mat :=
  concat (map (fun fI => map (pad_row (elen (Tensor fs)) (fst (snd fI))) (sel (ldom (fst fI)))) (combine fs (slices fs))).
Definition tensor_as_linquad (fs : list leaf) : dom :=
  mkDom LinQuad (elen (Tensor fs))
    (concat (map (fun f => lb (ldom f)) fs)) (concat (map (fun f => ub (ldom f)) fs))
    (tensor_A dA fs) (concat (map (fun f => db (ldom f)) fs))
    (tensor_A dAeq fs) (concat (map (fun f => dbeq (ldom f)) fs)) [].
(** add_constraints, tensor.py 163-168: LinQuadDomain.add_constraints on the inherited data. *)
Definition tensor_add_constraints (fs : list leaf) (c : dom) : dom := add_constraints (tensor_as_linquad fs) c.
