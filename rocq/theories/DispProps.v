(** Generated by tools/mkprops.py from tools/props/DispProps.spec: the property theorems. *)
Require Import String.
Require Import Reals List Bool Arith ZArith.
From Verif Require Import DispModel DispProofs.
Import ListNotations.
Local Open Scope R_scope.

Local Open Scope nat_scope.

(** C141: eval, grad and __call__ of BaseFunction *)
Theorem C141_returns : forall X V G K (k0 : K) (c : methods X V G K) m x n, total X V G K c -> answers X V G K c m = true -> (3 <= n)%nat ->
  exists r, run X V G K k0 n c m x = Val r /\ run X V G K k0 3 c m x = Val r.
Proof. exact dispatch_returns. Qed.
Print Assumptions C141_returns.

Theorem C141_recurses : forall X V G K (k0 : K) (c : methods X V G K) m x n, total X V G K c -> answers X V G K c m = false -> run X V G K k0 n c m x = Deep.
Proof. exact dispatch_recurses. Qed.
Print Assumptions C141_recurses.

Theorem C141_pairs : forall X V G K (k0 : K) (fe : X -> K -> out V) (fg : X -> out G) x k v g n, fe x k = Val v -> fg x = Val g -> (2 <= n)%nat ->
  let c := mkM (Some fe) (Some fg) None in
  run X V G K k0 n c (MCall true k) x = Val (RB v g) /\ run X V G K k0 n c (MCall false k) x = Val (RV v) /\
  run X V G K k0 n c (MEval k) x = Val (RV v) /\ run X V G K k0 n c MGrad x = Val (RG g).
Proof. exact dispatch_pairs. Qed.
Print Assumptions C141_pairs.

Example C141_pairs_case : run nat nat nat nat 0%nat 9 (mkM (Some (fun x k => Val (x * x + k)%nat)) (Some (fun x => Val (2 * x)%nat)) None) (MCall true 4%nat) 3%nat = Val (RB 13%nat 6%nat).
Proof. exact pair_case. Qed.

Theorem C141_predict : forall X V G K (k0 : K) (fe : X -> K -> out V) fg x v n, fe x k0 = Val v -> (3 <= n)%nat -> predict X V G K k0 n (mkM (Some fe) fg None) x = Val (RV v).
Proof. exact dispatch_predict. Qed.
Print Assumptions C141_predict.

Theorem C141_call_only : forall X V G K (k0 : K) (fc : X -> bool -> K -> out (V * option G)) x k v g n, fc x true k0 = Val (v, Some g) -> fc x false k0 = Val (v, None) -> (2 <= n)%nat ->
  let c := mkM None None (Some fc) in run X V G K k0 n c (MEval k) x = Val (RV v) /\ run X V G K k0 n c MGrad x = Val (RG g).
Proof. exact dispatch_call_only. Qed.
Print Assumptions C141_call_only.

Theorem C141_keywords_refuted : exists (fc : nat -> bool -> nat -> out (nat * option nat)) x k, let c : methods nat nat nat nat := mkM None None (Some fc) in
  forall n, (2 <= n)%nat -> run nat nat nat nat 0%nat n c (MCall false k) x <> run nat nat nat nat 0%nat n c (MEval k) x.
Proof. exact eval_keywords_refuted. Qed.
Print Assumptions C141_keywords_refuted.

Theorem C141_classes : forall X V G K (k0 : K) fe fg fc c m x, In c (map fst methods_seen) -> total X V G K (methods_of psdr_classes c fe fg fc) ->
  let recurses := String.eqb c "RidgeFunction"%string || (String.eqb c "GaussianProcess"%string || String.eqb c "LipschitzApproximation"%string) && is_grad m in
  if recurses then forall n, run X V G K k0 n (methods_of psdr_classes c fe fg fc) m x = Deep
  else exists r, forall n, (3 <= n)%nat -> run X V G K k0 n (methods_of psdr_classes c fe fg fc) m x = Val r.
Proof. exact classes_return. Qed.
Print Assumptions C141_classes.

Example C141_classes_case : total nat nat nat nat (squares "GaussianProcess"%string) /\ run nat nat nat nat 0%nat 100 (squares "GaussianProcess"%string) (MCall false 0%nat) 3%nat = Val (RV 9%nat) /\
  (forall n, run nat nat nat nat 0%nat n (squares "GaussianProcess"%string) MGrad 3%nat = Deep).
Proof. exact gp_case. Qed.

Theorem C141_gradient_refuted : exists c, In c (map fst methods_seen) /\ own psdr_classes c_eval c = true /\ forall n x, run nat nat nat nat 0%nat n (squares c) MGrad x = Deep.
Proof. exact gradient_refuted. Qed.
Print Assumptions C141_gradient_refuted.

(** the order in which classes are searched *)
Theorem C141_merge : forall fuel ls r, merge3 fuel ls = Some r ->
  NoDup r /\ (forall x, In x r <-> exists l, In l ls /\ In x l) /\ forall l, In l ls -> subseq l r.
Proof. exact merge_order. Qed.
Print Assumptions C141_merge.

Theorem C141_search_order : forall f t c ms, mro f t c = Some ms ->
  NoDup ms /\ (exists r, ms = c :: r) /\ forall x mx g, In x ms -> mro g t x = Some mx -> subseq mx ms.
Proof. exact search_order. Qed.
Print Assumptions C141_search_order.

Theorem C141_override_wins : forall t sel c d e md, lookup t sel c = Some d -> forall ms, mro 10 t c = Some ms -> In e ms -> mro 10 t e = Some md -> In d md -> d <> e ->
  match find_cls t e with Some x => sel x = false | None => True end.
Proof. exact override_wins. Qed.
Print Assumptions C141_override_wins.

Example C141_search_case : mro 10 diamond "D"%string = Some ["D"; "B"; "C"; "A"]%string /\ lookup diamond c_eval "D"%string = Some "C"%string /\ mro 10 psdr_classes "RidgeFunction"%string <> None /\ merge3 40 [["x"; "y"]; ["y"; "x"]]%string = None.
Proof. exact diamond_case. Qed.
