(** Generated by tools/mkprops.py from tools/props/NamesProps.spec: the property theorems. *)
Require Import String.
Require Import Reals List Bool Arith ZArith.
From Verif Require Import NamesModel NamesProofs.
Import ListNotations.
Local Open Scope R_scope.

Local Open Scope nat_scope.

(** C143: names of variables *)
Theorem C143_constructor : forall m a d, make m a = Some d -> n_dim d = m /\ length (leaf_names d) = m /\ (NoDup (leaf_names d) <-> match a with Given l => NoDup l | _ => True end).
Proof. exact constructor_names. Qed.
Print Assumptions C143_constructor.

Theorem C143_rejects : forall m a, make m a = None <-> exists l, a = Given l /\ length l <> m.
Proof. exact constructor_rejects. Qed.
Print Assumptions C143_rejects.

Theorem C143_product : forall ds, names (product ds) = concat (map names ds).
Proof. exact product_names. Qed.
Print Assumptions C143_product.

Theorem C143_associative : forall a b c, product [product [a; b]; c] = product [a; product [b; c]] /\ names (product [product [a; b]; c]) = names a ++ names b ++ names c.
Proof. exact product_assoc. Qed.
Print Assumptions C143_associative.

Theorem C143_slices : forall ds j d a b i, Forall named ds -> nth_error ds j = Some d -> nth_error (slices 0 ds) j = Some (a, b) -> a <= i < b ->
  nth_error (names (Product ds)) i = nth_error (leaf_names d) (i - a).
Proof. exact slice_names. Qed.
Print Assumptions C143_slices.

Theorem C143_normalized : forall d, names (normalized d) = map (fun n => (n ++ " (normalized)")%string) (names d) /\ (NoDup (names d) -> NoDup (names (normalized d))).
Proof. exact normalized_names. Qed.
Print Assumptions C143_normalized.

Example C143_case : exists a b, make 2 (Base "lower bump"%string) = Some a /\ make 3 (Base "upper bump"%string) = Some b /\
  names (normalized (product [Single a; Single b])) = ["lower bump 1 (normalized)"%string; "lower bump 2 (normalized)"%string; "upper bump 1 (normalized)"%string; "upper bump 2 (normalized)"%string; "upper bump 3 (normalized)"%string].
Proof. exact bump_names. Qed.

Theorem C143_distinct : forall a b, NoDup (names (product [a; b])) <-> NoDup (names a) /\ NoDup (names b) /\ (forall n, In n (names a) -> ~ In n (names b)).
Proof. exact product_distinct. Qed.
Print Assumptions C143_distinct.

Theorem C143_default_clash : forall ds i j m k, nth_error ds i = Some (mkLeaf (S m) None) -> nth_error ds j = Some (mkLeaf (S k) None) -> i <> j -> ~ NoDup (names (Product ds)).
Proof. exact default_names_clash. Qed.
Print Assumptions C143_default_clash.

Theorem C143_unique_refuted : exists ds, Forall (fun d => exists m, make m NoNames = Some d) ds /\ ~ NoDup (names (Product ds)) /\ names (Product ds) = ["x0"%string; "x1"%string; "x0"%string].
Proof. exact names_unique_refuted. Qed.
Print Assumptions C143_unique_refuted.
