(** Generated by tools/mkprops.py from tools/props/MmxProps.spec: the property theorems. *)
Require Import Reals List Bool Arith ZArith ZArith.
From Verif Require Import RVec Num Sums DomModel DomMoreModel LipModel SampModel DesignProofs GeoModel SampMoreModel MmxModel MmxProofs.
Import ListNotations.
Local Open Scope R_scope.

Local Open Scope R_scope.

(** C150: high-level minimax designs and optimal covers *)
Theorem C150_exact : forall (P : vec -> Prop) m L a corner cluster N, (0 < N)%nat -> convexP P -> metric_1d m L a -> corners P a (corner a) (corner (vscale (-1) a)) ->
  exists X, minimax_design m L corner cluster N = DDesign X /\ length X = N /\ Forall P X /\
    forall Y F, length Y = N -> (forall x, P x -> exists y, In y Y /\ Ldist [a] x y <= F) -> forall x, P x -> exists y, In y X /\ Ldist [a] x y <= F.
Proof. exact design_exact. Qed.
Print Assumptions C150_exact.

Theorem C150_cluster : forall m L corner cluster N, (L = None /\ m <> 1%nat) \/ (exists M, L = Some M /\ length M <> 1%nat) -> minimax_design m L corner cluster N = cluster.
Proof. exact design_cluster. Qed.
Print Assumptions C150_cluster.

Theorem C150_zero : forall m L a corner cluster, metric_1d m L a -> minimax_design m L corner cluster 0 = DRaise.
Proof. exact design_zero. Qed.
Print Assumptions C150_zero.

Theorem C150_transposed : forall m M X design r vol ball det D, optimal_cover m (Some M) X design r vol ball det = Some D -> X <> [] -> D <> [] -> forall x, In x X -> exists c, In c D /\ Ldist (mT m M) c x <= r.
Proof. exact cover_transposed. Qed.
Print Assumptions C150_transposed.

Theorem C150_smallest_partial : forall m M X design r vol ball det, symmetric m M -> let n0 := cover_num m 1 r vol ball det in let n1 := cover_num m 3 r vol ball det in
  (1 <= n0 < n1)%Z -> (forall a b, (n0 <= a <= b)%Z -> (b <= n1)%Z -> mm_dist M (design b) X <= mm_dist M (design a) X) -> r < mm_dist M (design n0) X -> mm_dist M (design n1) X < r ->
  exists n, optimal_cover m (Some M) X design r vol ball det = Some (design n) /\ (n0 <= n <= n1)%Z /\ mm_dist M (design n) X <= r /\ forall k, (n0 <= k <= n1)%Z -> mm_dist M (design k) X <= r -> (n <= k)%Z.
Proof. exact cover_smallest_partial. Qed.
Print Assumptions C150_smallest_partial.

Theorem C150_default : forall m X design r vol ball det, optimal_cover m None X design r vol ball det = None.
Proof. exact cover_default. Qed.
Print Assumptions C150_default.

Example C150_exact_case : convexP unit_iv /\ metric_1d 1 None [1] /\ corners unit_iv [1] [1] [0].
Proof. exact design_exact_case. Qed.

Example C150_cover_case : let M := [[1; 0]; [0; 1]] in let X := [[0; 0]; [3; 0]] in let design := fun n => if Z.leb n 1 then [[0; 0]] else X in
  symmetric 2 M /\ cover_num 2 1 2 (4 * PI) PI 1 = 1%Z /\ cover_num 2 3 2 (4 * PI) PI 1 = 9%Z /\ (forall a b, (1 <= a <= b)%Z -> (b <= 9)%Z -> mm_dist M (design b) X <= mm_dist M (design a) X) /\ 2 < mm_dist M (design 1%Z) X /\ mm_dist M (design 9%Z) X < 2.
Proof. exact cover_case. Qed.

(** what fails *)
Theorem C150_one_dimension_refuted : exists (P : vec -> Prop) L corner X x0 y, convexP P /\ corners P [1] (corner [1]) (corner [-1]) /\ Forall P X /\ In x0 X /\
  (forall maxiter xtol center, minimax_design 1 (Some L) corner (DDesign (minimax_cluster maxiter L X 1 xtol center [x0])) 1 = DDesign [x0]) /\
  P y /\ exists F, (forall x, P x -> Ldist L x y <= F) /\ exists x, P x /\ F < Ldist L x x0.
Proof. exact design_1d_refuted. Qed.
Print Assumptions C150_one_dimension_refuted.

Theorem C150_metric_refuted : exists m M X design r vol ball det D, ball = PI /\ det = 1 /\ (forall n, (1 <= n <= 9)%Z -> Z.of_nat (length (design n)) = n /\ incl (design n) X) /\
  optimal_cover m (Some M) X design r vol ball det = Some D /\ exists x, In x X /\ forall c, In c D -> r < Ldist M c x.
Proof. exact cover_metric_refuted. Qed.
Print Assumptions C150_metric_refuted.

Theorem C150_raises_refuted : exists m M X vol ball det, symmetric m M /\
  (exists r, (forall design, optimal_cover m (Some M) X design r vol ball det = None) /\ exists c, In c X /\ forall x, In x X -> Ldist M c x <= r) /\
  (exists r, (1 <= cover_num m 1 r vol ball det)%Z /\ (forall design, (forall n, In (nth 0 X []) (design n)) -> optimal_cover m (Some M) X design r vol ball det = None) /\ exists c, In c X /\ forall x, In x X -> Ldist M c x < r).
Proof. exact cover_raises_refuted. Qed.
Print Assumptions C150_raises_refuted.
