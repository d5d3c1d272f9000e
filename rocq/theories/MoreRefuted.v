(** Counterexamples stated on their own. *)
Require Import Reals List Bool Arith ZArith Lia Lra.
From Verif Require Import RVec Num DomModel DomMoreModel QuadProofs LipModel SubModel RidgeModel RidgeFitCases.
Import ListNotations.
Local Open Scope R_scope.

(** the standard lognormal with covariance 4 is not the density that pdf returns *)
Theorem logn_pdf_refuted : exists mean cov offset scaling, 0 < cov /\ 0 < scaling /\ ~ is_logn_density mean cov offset scaling (logn_pdf mean cov offset scaling).
Proof. exists 0, 4, 0, 1. split; [lra|]. split; [lra|]. intro H. apply logn_pdf_spec in H; lra. Qed.
(** one value per sample is a valid input of fit, but is refused when the values are passed on as a column (no U0 given) *)
Theorem vector_values_refuted : exists X f, length f = length (arows X) /\ check_sample_inputs (Some X) (Some f) None <> None /\ forall v, In v (pv_values f) -> check_sample_inputs (Some X) (Some v) None = None.
Proof.
  exists (mkArr 2 [[0; 0]; [1; 0]; [0; 1]]), [1; 2; 3]. split; [reflexivity|]. split; [discriminate|]. intros v I. apply (vector_init_raises _ [1; 2; 3]); auto. simpl. lia.
Qed.
