(** Names of the variables of a domain: psdr/domains/euclidean.py 39-60, tensor.py 23-42, 57-63, 103-105, and the names of the normalized
    domains (linquad.py 248, linineq.py 56, box.py 81, normal.py 120, lognormal.py 68). *)
Require Import Decimal DecimalString String List Bool Arith.
Import ListNotations.
Local Open Scope string_scope.
Local Open Scope list_scope.

(** '%d' % n *)
Definition fmt_d (n : nat) : string := NilZero.string_of_uint (Nat.to_uint n).
(** the argument names of a constructor *)
Inductive narg := NoNames | Base (s : string) | Given (l : list string).
(** a domain of dimension [n_dim] with the names stored by _init_names (None: not stored), euclidean.py 49-60; None: AssertionError *)
Definition init_names (a : narg) (m : nat) : option (option (list string)) :=
  match a with
  | NoNames => Some None
  | Base s => Some (Some (if Nat.eqb m 1 then [s] else map (fun j => (s ++ (" " ++ fmt_d (j + 1)))%string) (seq 0 m)))
  | Given l => if Nat.eqb m (length l) then Some (Some l) else None
  end.
(** a domain, or the flattened list of factors of a product *)
Record leaf := mkLeaf { n_dim : nat; n_stored : option (list string) }.
Inductive ndom := Single (d : leaf) | Product (ds : list leaf).
Definition make (m : nat) (a : narg) : option leaf := match init_names a m with Some s => Some (mkLeaf m s) | None => None end.
(** names of a domain that is no product, euclidean.py 39-47; the default is stored at the first use, which changes nothing *)
Definition leaf_names (d : leaf) : list string := match n_stored d with Some l => l | None => map (fun i => ("x" ++ fmt_d i)%string) (seq 0 (n_dim d)) end.
(** names of a product, tensor.py 40-42 *)
Definition names (d : ndom) : list string := match d with Single l => leaf_names l | Product ds => concat (map leaf_names ds) end.
Definition leaves (d : ndom) : list leaf := match d with Single l => [l] | Product ds => ds end.
Definition ndim (d : ndom) : nat := list_sum (map n_dim (leaves d)).
(** TensorProductDomain(domains), tensor.py 23-36: products among the domains are flattened.  a * b is TensorProductDomain([a, b]) *)
Definition product (ds : list ndom) : ndom := Product (flat_map leaves ds).
(** the normalized domain: ' (normalized)' is appended; a product normalizes its factors *)
Definition norm_leaf (d : leaf) : leaf := mkLeaf (n_dim d) (Some (map (fun n => (n ++ " (normalized)")%string) (leaf_names d))).
Definition normalized (d : ndom) : ndom := match d with Single l => Single (norm_leaf l) | Product ds => Product (map norm_leaf ds) end.
(** _slices, tensor.py 57-63 *)
Fixpoint slices (start : nat) (ds : list leaf) : list (nat * nat) :=
  match ds with [] => [] | d :: ds' => (start, start + n_dim d) :: slices (start + n_dim d) ds' end.
