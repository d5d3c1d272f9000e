(** Concrete cases of the coefficient fit, the fixed subspace and the alternating residual; initialization of polyridge_vec. *)
Require Import Reals Lra Lia List Bool Arith ZArith.
From Verif Require Import RVec Num Sums DomModel DomMoreModel SweepProofs HullProofs HullIneqProofs Deriv BasisModel IndexProofs PolyProofs MatLib SpecProofs GrassLib LipModel LipFitProofs SubModel InitProofs ActiveProofs RidgeModel RidgeProofs TrajProofs PolySpan VarproLib VarproProofs GnStep VarproCases RidgeFitProofs RidgeFinish FinishCases.
Import ListNotations.
Local Open Scope R_scope.

(** polyridge_vec.py 136-139: one-dimensional values become a row; each transposed row has one value *)
Theorem vector_init_raises : forall X f v, length (arows X) <> 1%nat -> In v (pv_values f) -> check_sample_inputs (Some X) (Some v) None = None.
Proof. intros X f v H I. apply csi_rejects. left. unfold pv_values in I. apply in_map_iff in I. destruct I as [a [<- _]]. exact H. Qed.
Example vector_init_case : pv_values [1; 2; 3] = [[1]; [2]; [3]] /\ check_sample_inputs (Some (mkArr 2 [[0; 0]; [1; 0]; [0; 1]])) (Some [1; 2; 3]) None <> None /\ check_sample_inputs (Some (mkArr 2 [[0; 0]; [1; 0]; [0; 1]])) (Some [1]) None = None.
Proof. split; [reflexivity|]. split; [discriminate|reflexivity]. Qed.

(* ---------- a fixed direction in three dimensions ---------- *)
Definition hB : tbasis := mkTB monomials 1 2 NoScale.
Definition hX : mat := [[-1; -1; 1]; [-1; 1; -1]; [1; -1; -1]; [1; 1; 1]].
Definition hF : vec := [0; -2; -6; 8].
Definition hUf : list vec := [[1; 0; 0]].
Definition hUc : list vec := [[0; 1; 0]; [0; 0; 1]].
Definition hC (U : list vec) : vec := let y := map (fun x => dot (nth 1 U []) x) hX in [0; 1; dot y hF / dot y y].
Lemma hB_ok : basis_ok hB 2.
Proof. split; [apply monomials_ok|]. split; [apply monomials_rec|]. split; auto. split; auto. intros k Hk. cbn. lra. Qed.
Lemma hV : forall a b, Vrow hB [a; b] = [1; a; b].
Proof. intros a b. unfold Vrow. change (indices hB) with [[0; 0]; [1; 0]; [0; 1]]%nat. cbn. unfold scale. cbn. unfold vget. cbn. repeat (apply f_equal2; [ring|]). reflexivity. Qed.
Lemma hJ : forall t, pv_join 3 hUf hUc (line [[1; 0]] [[0; 1]] t) = [[1; 0; 0]; [0; 1; t]].
Proof. intro t. unfold pv_join, hUf, hUc, line, lincomb, vadd, vscale. cbn. repeat (apply f_equal2; [repeat (apply f_equal2; [ring|]); reflexivity|]). reflexivity. Qed.
Lemma hVl : forall t, vp_V hB [[1; 0; 0]; [0; 1; t]] hX = [[1; -1; -1 + t]; [1; -1; 1 - t]; [1; 1; -1 - t]; [1; 1; 1 + t]].
Proof. intros. unfold vp_V, hX, mv. cbn [map]. rewrite !hV, !dot_cons, !dot_nil_l. repeat (apply f_equal2; [repeat (apply f_equal2; [ring|]); reflexivity|]). reflexivity. Qed.
Lemma hLS : forall t, ls_opt (length (indices hB)) (vp_V hB [[1; 0; 0]; [0; 1; t]] hX) hF (hC [[1; 0; 0]; [0; 1; t]]).
Proof.
  intro t. change (length (indices hB)) with 3%nat. rewrite hVl. split; auto. intros c' Lc. destruct c' as [|a [|b [|c [|]]]]; try discriminate Lc. unfold hC, hX, hF. cbn [nth map]. rewrite !dot_cons, !dot_nil_l.
  match goal with |- context [?p / ?q] => replace p with (4 * (3 + 4 * t)) by ring; replace q with (4 * (1 + t * t)) by ring end. assert (P : 0 < 1 + t * t) by nra. set (w := 4 * (3 + 4 * t) / (4 * (1 + t * t))). assert (W : w * (1 + t * t) = 3 + 4 * t) by (unfold w; field; lra).
  unfold norm2. apply sqrt_le_1_alt. unfold norm2sq, mv. cbn [map]. rewrite !dot_cons, !dot_nil_l. unfold vsub. cbn. rewrite !dot_cons, !dot_nil_l.
  assert (S1 : 0 <= (c - w) * (c - w)) by apply Rle_0_sqr. assert (S2 : 0 <= a * a) by apply Rle_0_sqr. assert (S3 : 0 <= (b - 1) * (b - 1)) by apply Rle_0_sqr. assert (S4 : 0 <= (1 + t * t) * ((c - w) * (c - w))) by (apply Rmult_le_pos; lra).
  assert (D : (c - w) * (w * (1 + t * t) - (3 + 4 * t)) = 0) by (rewrite W; ring). nra.
Qed.
Definition hY : list vec := [[1/2; 1/2; 1/2; 1/2]; [-1/2; -1/2; 1/2; 1/2]; [-1/2; 1/2; -1/2; 1/2]].
Definition hS : vec := [2; 2; 2].
Definition hZ : list vec := [[1; 0; 0]; [0; 1; 0]; [0; 0; 1]].
Ltac three a := let H := fresh in destruct a as [|[|[|a]]]; [| | |exfalso; cbn in *; lia].
Lemma hSVD : svd_mat (length hX) (length (indices hB)) (vp_V hB [[1; 0; 0]; [0; 1; 0]] hX) hY hS hZ.
Proof.
  unfold svd_mat, cols. rewrite hVl. change (length (indices hB)) with 3%nat. split; auto. split; [repeat constructor|]. split; [intros a b Ha Hb; three a; three b; cbn; rewrite !dot_cons, !dot_nil_l; lra|]. split; auto.
  split; [split; auto; split; [repeat constructor|]; intros a b Ha Hb; three a; three b; cbn; rewrite !dot_cons, !dot_nil_l; lra|].
  intros c Hc. three c; unfold lincomb; cbn; unfold vget; cbn; repeat (apply f_equal2; [lra|]); reflexivity.
Qed.
(** hypotheses of [fixed_jacobian_correct] and [fixed_join], with a residual that is not zero *)
Example fixed_case : let J := fun t => pv_join 3 hUf hUc (line [[1; 0]] [[0; 1]] t) in
  orthonormal (hUf ++ hUc) /\ near (fun t => basis_ok hB (length hUf + 1) /\ tb_deg hB = tb_deg hB /\ ls_opt (length (indices hB)) (vp_V hB (J t) hX) hF (hC (J t))) /\
  svd_mat (length hX) (length (indices hB)) (vp_V hB (J 0) hX) hY hS hZ /\ (forall k, (k < length hS)%nat -> vget hS k <> 0) /\
  vget (vp_residual (vp_V hB (J 0) hX) hF (hC (J 0))) 3 = 4.
Proof.
  intro J. unfold J. split; [intros a b Ha Hb; three a; three b; cbn; rewrite !dot_cons, !dot_nil_l; lra|]. split; [exists 1; split; [lra|]; intros t _; rewrite hJ; split; [apply hB_ok|split; [reflexivity|apply hLS]]|]. rewrite hJ. split; [apply hSVD|].
  split; [intros k Hk; three k; unfold vget, hS; cbn; lra|]. unfold vp_residual. rewrite hVl. unfold hC, hX, hF. cbn [nth map]. rewrite !dot_cons, !dot_nil_l. unfold mv, vsub, vget. cbn. rewrite !dot_cons, !dot_nil_l. field.
Qed.
(** hypotheses of [pr_jac_correct] *)
Example pr_jac_case : fam_ok (tb_fam fB) /\ tb_dim fB = 2%nat /\ length fE = 2%nat /\ Forall (fun u : vec => length u = 2%nat) fE /\ Forall (fun x : vec => length x = 2%nat) fX /\ length (map fq fX) = length fX /\ length [0; 0; 0; 1; 0; 2] = length (indices fB).
Proof. split; [apply monomials_ok|]. repeat (split; [first [reflexivity | (repeat constructor)]|]). reflexivity. Qed.
(** hypotheses of [ridge_coef_bound]: the constant profile -1 is the best lower bound of these values in the maximum norm *)
Example coef_case : coef_returns Ninf Lower (length (indices exB)) (vp_V exB [[1; 0]] exX) [-1; 1; 1; -1] [-1; 0].
Proof.
  change (length (indices exB)) with 2%nat. rewrite exV_line. split; [reflexivity|].
  assert (R : forall a b, fit_residual (mneg [[1; - (1) + 0]; [1; 1 + 0]; [1; - (1) - 0]; [1; 1 - 0]]) (vscale (-1) [-1; 1; 1; -1]) [a; b] = [- a + b - 1; - a - b + 1; - a + b + 1; - a - b - 1]) by (intros; unfold fit_residual, mneg, mv, vsub, vscale; cbn [map]; rewrite !dot_cons, !dot_nil_l; cbn; repeat (apply f_equal2; [ring|]); reflexivity).
  split; [rewrite R; cbn; repeat constructor; lra|]. intros y Ly Cy. destruct y as [|a [|b [|]]]; try discriminate Ly. rewrite R in Cy. rewrite !R. cbn in Cy. inversion_clear Cy as [|? ? A1 C1]; inversion_clear C1 as [|? ? A2 C2]; inversion_clear C2 as [|? ? A3 C3]; inversion_clear C3 as [|? ? A4 C4]. unfold fit_obj.
  set (l := map Rabs [- a + b - 1; - a - b + 1; - a + b + 1; - a - b - 1]). destruct (vmax_spec l ltac:(discriminate)) as [Bd _].
  apply Rle_trans with 2; [cbn; unfold vmax; cbn; unfold Rmax, Rabs; repeat destruct Rcase_abs; repeat destruct Rle_dec; lra|].
  assert (I1 : - a + b + 1 <= vmax l) by (apply Rle_trans with (Rabs (- a + b + 1)); [apply Rle_abs|apply Bd; right; right; left; reflexivity]). assert (I2 : - a - b + 1 <= vmax l) by (apply Rle_trans with (Rabs (- a - b + 1)); [apply Rle_abs|apply Bd; right; left; reflexivity]). lra.
Qed.
Example constraints_case : pr_constraints 3 [[1; 0; 0]] [0; 2; 3] /\ ~ pr_constraints 3 [[1; 0; 0]] [1; 2; 3].
Proof.
  split; [intros k Hk u [<-|[]]; cbn in Hk; replace k with 0%nat by lia; cbn; rewrite !dot_cons, !dot_nil_l; lra|]. intro H. specialize (H 0%nat ltac:(cbn; lia) _ (or_introl eq_refl)). cbn in H. rewrite !dot_cons, !dot_nil_l in H. lra.
Qed.
