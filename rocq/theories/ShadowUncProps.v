(** Generated by tools/mkprops.py from tools/props/ShadowUncProps.spec: the property theorems. *)
Require Import Reals List Bool Arith ZArith.
From Verif Require Import RVec Num Sums DomMoreModel MatLib LipModel LipProofs LipMoreProofs PigeonLib ShadowUncModel ShadowUncProofs ShadowUncCases.
Import ListNotations.
Local Open Scope R_scope.

Local Open Scope R_scope.

(** C134: uncertainty along a direction *)
Theorem C134_grid : forall P corner starts mmx L eps D u n, corner_of P corner u -> corner_of P corner (vscale (-1) u) -> (forall y, between P u y -> starts y <> []) ->
  exists lo hi ys bs, shadow_unc corner starts mmx L eps D u (S (S n)) = Some (ys, bs) /\ length ys = S (S n) /\ length bs = S (S n) /\
    (exists x, P x /\ dot u x = lo) /\ (exists x, P x /\ dot u x = hi) /\ (forall x, P x -> lo <= dot u x <= hi) /\
    forall i, (i < S (S n))%nat -> nth i ys 0 = lo + INR i * ((hi - lo) / INR (S n)).
Proof. exact su_grid. Qed.
Print Assumptions C134_grid.

Theorem C134_attained : forall P corner starts mmx L D u n ys bs, corner_of P corner u -> corner_of P corner (vscale (-1) u) -> (forall y, between P u y -> starts y <> []) -> D <> [] ->
  (forall y f x0, between P u y -> In x0 (starts y) -> P (mmx y f x0) /\ dot u (mmx y f x0) = y) -> shadow_unc corner starts mmx L None D u (S (S n)) = Some (ys, bs) ->
  forall i, (i < S (S n))%nat -> exists x x', P x /\ dot u x = nth i ys 0 /\ P x' /\ dot u x' = nth i ys 0 /\
    nth i bs (NInf, PInf) = (Fin (vmax (map (fun d => snd d - Ldist L x (fst d)) D)), Fin (vmin (map (fun d => snd d + Ldist L x' (fst d)) D))).
Proof. exact su_attained. Qed.
Print Assumptions C134_attained.

Example C134_case : corner_of su_P su_c [1] /\ corner_of su_P su_c (vscale (-1) [1]) /\ (forall y, su_st y <> []) /\ (forall y f x0, between su_P [1] y -> In x0 (su_st y) -> su_P (su_mm y f x0) /\ dot [1] (su_mm y f x0) = y) /\
  exists b, shadow_unc su_c su_st su_mm [[2]] None [([0], 5)] [1] 3 = Some ([0; 1/2; 1], b) /\ b = [(Fin 5, Fin 5); (Fin 4, Fin 6); (Fin 3, Fin 7)].
Proof. exact su_case. Qed.

Theorem C134_encloses_partial : forall P corner starts mmx L D u n ys bs f, corner_of P corner u -> corner_of P corner (vscale (-1) u) -> (forall y, between P u y -> starts y <> []) -> D <> [] ->
  (forall x, P x -> dot u x = dot u (corner u) -> mv L x = mv L (corner u)) -> (forall x, P x -> dot u x = dot u (corner (vscale (-1) u)) -> mv L x = mv L (corner (vscale (-1) u))) ->
  shadow_unc corner starts mmx L None D u (S (S n)) = Some (ys, bs) ->
  (forall i z, (0 < i < S n)%nat -> P z -> dot u z = nth i ys 0 ->
     (exists x0, In x0 (starts (nth i ys 0)) /\ vmax (lowerb L D (mmx (nth i ys 0) (lowerb L D) x0)) <= vmax (lowerb L D z)) /\
     (exists x0, In x0 (starts (nth i ys 0)) /\ vmax (upperb L D (mmx (nth i ys 0) (upperb L D) x0)) <= vmax (upperb L D z))) ->
  consistent P L D f -> forall i x, (i < S (S n))%nat -> P x -> dot u x = nth i ys 0 ->
    nleb (fst (nth i bs (NInf, PInf))) (Fin (f x)) = true /\ nleb (Fin (f x)) (snd (nth i bs (NInf, PInf))) = true.
Proof. exact su_encloses. Qed.
Print Assumptions C134_encloses_partial.

Example C134_encloses_case : (forall x, su_P x -> dot [1] x = dot [1] (su_c [1]) -> mv [[2]] x = mv [[2]] (su_c [1])) /\
  (forall x, su_P x -> dot [1] x = dot [1] (su_c (vscale (-1) [1])) -> mv [[2]] x = mv [[2]] (su_c (vscale (-1) [1]))) /\
  (forall i z, (0 < i < 2)%nat -> su_P z -> dot [1] z = nth i [0; 1/2; 1] 0 ->
     (exists x0, In x0 (su_st (nth i [0; 1/2; 1] 0)) /\ vmax (lowerb [[2]] [([0], 5)] (su_mm (nth i [0; 1/2; 1] 0) (lowerb [[2]] [([0], 5)]) x0)) <= vmax (lowerb [[2]] [([0], 5)] z)) /\
     (exists x0, In x0 (su_st (nth i [0; 1/2; 1] 0)) /\ vmax (upperb [[2]] [([0], 5)] (su_mm (nth i [0; 1/2; 1] 0) (upperb [[2]] [([0], 5)]) x0)) <= vmax (upperb [[2]] [([0], 5)] z))) /\
  consistent su_P [[2]] [([0], 5)] (fun x => 5 + 2 * vget x 0).
Proof. exact su_encloses_case. Qed.

Theorem C134_endpoint_refuted : exists P corner starts mmx L D u n ys bs f i x, corner_of P corner u /\ corner_of P corner (vscale (-1) u) /\ (forall y, between P u y -> starts y <> []) /\ D <> [] /\
  shadow_unc corner starts mmx L None D u (S (S n)) = Some (ys, bs) /\
  (forall i z, (0 < i < S n)%nat -> P z -> dot u z = nth i ys 0 ->
     (exists x0, In x0 (starts (nth i ys 0)) /\ vmax (lowerb L D (mmx (nth i ys 0) (lowerb L D) x0)) <= vmax (lowerb L D z)) /\
     (exists x0, In x0 (starts (nth i ys 0)) /\ vmax (upperb L D (mmx (nth i ys 0) (upperb L D) x0)) <= vmax (upperb L D z))) /\
  consistent P L D f /\ (i < S (S n))%nat /\ P x /\ dot u x = nth i ys 0 /\ nleb (Fin (f x)) (snd (nth i bs (NInf, PInf))) = false.
Proof. exact su_endpoint_refuted. Qed.
Print Assumptions C134_endpoint_refuted.

Theorem C134_single_refuted : exists P corner starts mmx L D u y b f x, corner_of P corner u /\ corner_of P corner (vscale (-1) u) /\
  (forall x, P x -> dot u x = dot u (corner u) -> mv L x = mv L (corner u)) /\ (forall x, P x -> dot u x = dot u (corner (vscale (-1) u)) -> mv L x = mv L (corner (vscale (-1) u))) /\
  shadow_unc corner starts mmx L None D u 1 = Some ([y], [b]) /\ consistent P L D f /\ P x /\ dot u x = y /\ nleb (Fin (f x)) (snd b) = false.
Proof. exact su_single_refuted. Qed.
Print Assumptions C134_single_refuted.

Theorem C134_epsilon_refuted : exists P corner starts mmx L e D u ys bs f i x, 0 < e /\ corner_of P corner u /\ corner_of P corner (vscale (-1) u) /\
  (forall y f x0, between P u y -> In x0 (starts y) -> forall z, P z -> dot u z = y -> z = mmx y f x0) /\
  shadow_unc corner starts mmx L (Some e) D u 3 = Some (ys, bs) /\ (forall x d, P x -> In d D -> Rabs (f x - snd d) <= Ldist L x (fst d) + e) /\
  (i < 3)%nat /\ P x /\ dot u x = nth i ys 0 /\ nleb (Fin (f x)) (snd (nth i bs (NInf, PInf))) = false.
Proof. exact su_epsilon_refuted. Qed.
Print Assumptions C134_epsilon_refuted.
