(** Generated by tools/mkprops.py from tools/props/KdeProps.spec: the property theorems. *)
Require Import Reals List Bool Arith ZArith.
From Verif Require Import RVec DomMoreModel LipModel SampModel MiniModel KdeModel KdeProofs.
Import ListNotations.
Local Open Scope R_scope.

Local Open Scope R_scope.

(** C156: kernel density estimates of ridge values *)
Theorem C156_density : forall h y G a b, 0 < h -> y <> [] -> antiderivative_of G (kde h y) -> a <= vmin y - h -> vmax y + h <= b -> (forall t, 0 <= kde h y t) /\ G b - G a = 1.
Proof. exact kde_density. Qed.
Print Assumptions C156_density.

Example C156_density_case : antiderivative_of (kcdf 1 [0; 3]) (kde 1 [0; 3]) /\ -1 <= vmin [0; 3] - 1 /\ vmax [0; 3] + 1 <= 4.
Proof. exact kde_case. Qed.

Theorem C156_antiderivative : forall h y, 0 < h -> exists G, antiderivative_of G (kde h y).
Proof. exact kde_antiderivative. Qed.
Print Assumptions C156_antiderivative.

Theorem C156_returns_partial : forall y n, (exists r, ridge_pdf y n = Some r) <-> exists p25 p75, percentile y 25 = Some p25 /\ percentile y 75 = Some p75 /\ p25 < p75.
Proof. exact pdf_returns. Qed.
Print Assumptions C156_returns_partial.

Theorem C156_constant_refuted : forall c m n, ridge_pdf (repeat c m) n = None.
Proof. exact pdf_constant_refuted. Qed.
Print Assumptions C156_constant_refuted.

Theorem C156_grid : forall y n xx yy, ridge_pdf y n = Some (xx, yy) -> exists h p25 p75, percentile y 25 = Some p25 /\ percentile y 75 = Some p75 /\ h = (p75 - p25) / 10 /\ 0 < h /\
  length xx = n /\ length yy = n /\ (forall k, (k < n)%nat -> vget yy k = kde h y (vget xx k) /\ INR (n - 1) * (vget xx k - vmin y) = INR k * (vmax y - vmin y)) /\ ((0 < n)%nat -> vget xx 0 = vmin y).
Proof. exact pdf_grid. Qed.
Print Assumptions C156_grid.

Example C156_grid_case : exists r, ridge_pdf [0; 1] 3 = Some r.
Proof. exact pdf_case. Qed.

Theorem C156_mass_refuted : forall y n xx yy, ridge_pdf y n = Some (xx, yy) -> exists h, 0 < h /\ (forall k, (k < n)%nat -> vget yy k = kde h y (vget xx k)) /\
  forall G, antiderivative_of G (kde h y) -> G (vmax y) - G (vmin y) <= 1 - / INR (length y).
Proof. exact pdf_mass_refuted. Qed.
Print Assumptions C156_mass_refuted.

Theorem C156_mass_sharp : forall h a b l G, 0 < h -> a + h <= b -> (forall c, In c l -> a + h <= c <= b - h) -> antiderivative_of G (kde h (a :: b :: l)) -> G b - G a = 1 - / INR (length (a :: b :: l)).
Proof. exact kde_mass_sharp. Qed.
Print Assumptions C156_mass_sharp.

Example C156_sharp_case : 0 + 1 <= 3 /\ (forall c, In c [1; 2] -> 0 + 1 <= c <= 3 - 1).
Proof. exact kde_sharp_case. Qed.
