(** Concrete cases beside theorems of several files. *)
Require Import Reals Lra Lia List Bool Arith.
From Verif Require Import RVec Num Sums DomModel DomSpec DomProofs DomOpsProofs DomMoreModel BoxPredProofs MatLib LipModel LipProofs LipConstProofs LipMoreProofs LipFitProofs GeoModel GeoProofs SubModel GpModel GpCases.
Import ListNotations.
Local Open Scope R_scope.

(** the predicates of the box [0,1] x [0,inf): not empty, not a point, unbounded *)
Example box_pred_case : let l := [Fin 0; Fin 0] in let u := [Fin 1; PInf] in
  box_bounds l u /\ in_box l u [1; 5] /\ any_gt l u = false /\ any_inf l u = true /\ all_close l u (/ 10) = false /\
  fst (run_queries l u (/ 10) [QUnb; QPoint; QUnb] fresh) = [true; false; true].
Proof.
  cbn zeta. assert (B : box_bounds [Fin 0; Fin 0] [Fin 1; PInf]) by (split; [repeat constructor|split; [repeat constructor|reflexivity]]).
  assert (A : all_close [Fin 0; Fin 0] [Fin 1; PInf] (/ 10) = false).
  { unfold all_close. cbn [zipw forallb]. replace (nltb (nabs (nsub PInf (Fin 0))) (Fin (/ 10))) with false by reflexivity. apply andb_false_r. }
  split; auto. split.
  - split; [reflexivity|]. intros [|[|i]]; (split; intros v E; cbn in E; try discriminate; try (injection E as <-; cbn; lra)); destruct i; discriminate.
  - split; [|split; [reflexivity|split; [exact A|]]].
    + unfold any_gt. cbn [zipw existsb nltb]. replace (Rltb 1 0) with false; [reflexivity|]. symmetry. apply Rltb_false. lra.
    + rewrite history_partial by repeat constructor. cbn [map truth]. rewrite A. reflexivity.
Qed.
(** three points, the first two closer than the tolerance: the first one is dropped *)
Example unique_case : unique_mask [[0]; [atol / 2]; [1]] = [false; true; true].
Proof.
  pose proof atol_pos as A. assert (A1 : atol < / 10) by (unfold atol; lra). cbn [unique_mask map].
  assert (E1 : edist [0] [atol / 2] = atol / 2) by (rewrite edist1, Rabs_left; lra). assert (E2 : edist [0] [1] = 1) by (rewrite edist1, Rabs_left; lra). assert (E3 : edist [atol / 2] [1] = 1 - atol / 2) by (rewrite edist1, Rabs_left; lra).
  rewrite E1, E2, E3. unfold vmin. cbn [fold_left]. rewrite Rmin_left by lra. unfold np_close. rewrite !Rminus_0_r, Rabs_R0, Rmult_0_r, Rplus_0_r, !Rabs_right by lra.
  replace (Rleb (atol / 2) atol) with true by (symmetry; apply Rleb_true; lra). replace (Rleb (1 - atol / 2) atol) with false by (symmetry; apply Rleb_false; lra). reflexivity.
Qed.
(** f = -x at 0, 1, 3 and the column 1: the sign is changed *)
Example signs_samples_case : fix_signs [[1]] [[0]; [1]; [3]] [0; -1; -3] [] = [[-1]].
Proof.
  unfold fix_signs, signs_samps. cbn [map scale_cols zipw]. assert (S : slope_sum [1] [[0]; [1]; [3]] [0; -1; -3] = -3).
  { unfold slope_sum, pairs. cbn [length seq flat_map map app Nat.sub fst snd nth vget]. unfold vget. cbn [nth]. unfold vsub. cbn [vmap2]. rewrite !dot_cons, !dot_nil_l.
    assert (T : forall d, d < 0 -> Rltb 0 (Rabs d) = true) by (intros d Hd; apply Rltb_true; apply Rabs_pos_lt; lra). rewrite !T by lra. unfold vsum. cbn [fold_right]. field. }
  rewrite S. unfold Reqb. destruct (Req_EM_T (-3) 0); [lra|]. unfold sgn. replace (Rltb 0 (-3)) with false by (symmetry; apply Rltb_false; lra). replace (Rltb (-3) 0) with true by (symmetry; apply Rltb_true; lra). cbn [vscale map]. do 2 f_equal. ring.
Qed.
(** gradients -1 and -3 along the column 1: mean -2, the sign is changed *)
Example signs_grads_case : mean_slope [1] [[-1]; [-3]] <> 0 /\ fix_signs [[1]] [] [] [[-1]; [-3]] = [[-1]].
Proof.
  assert (S : mean_slope [1] [[-1]; [-3]] = -2) by (unfold mean_slope; cbn [map length]; rewrite !dot_cons, !dot_nil_l; unfold vsum; cbn [fold_right INR]; field). split; [rewrite S; lra|].
  unfold fix_signs, signs_grads. cbn [map scale_cols zipw]. fold (mean_slope [1] [[-1]; [-3]]). unfold mean_slope in S. cbn [map] in S. rewrite S. unfold sgn. replace (Rltb 0 (-2)) with false by (symmetry; apply Rltb_false; lra). replace (Rltb (-2) 0) with true by (symmetry; apply Rltb_true; lra). cbn [vscale map]. do 2 f_equal. ring.
Qed.
(** H = 4 on the points 0, 1, 3 with values 0, 3, 3: violated by 5 for the first pair, slack for the others *)
Example dist_case : sq 1 [[4]] /\ Forall (dimP 1) [[0]; [1]; [3]] /\ apart [[0]; [1]; [3]] /\ dist_eval [[4]] [[0]; [1]; [3]] [0; 3; 3] = [Fin (-5); Fin 3; Fin 4].
Proof.
  split; [split; [reflexivity|repeat constructor]|]. split; [repeat constructor|]. split.
  - intros i j [H1 H2]. cbn in H2. assert (C : (i = 0 /\ j = 1 \/ i = 0 /\ j = 2 \/ i = 1 /\ j = 2)%nat) by lia. apply sqrt_lt_R0. unfold norm2sq, vsub. destruct C as [[-> ->]|[[-> ->]|[-> ->]]]; cbn; rewrite !dot_cons, !dot_nil_l; lra.
  - unfold dist_eval, pairs. cbn [length seq flat_map map app Nat.sub fst snd nth]. unfold vget. cbn [nth]. unfold quad, mv, vsub. cbn [vmap2 map]. rewrite !dot_cons, !dot_nil_l. unfold ndivr.
    repeat (destruct Req_EM_T as [Q|_]; [exfalso; lra|]). repeat f_equal; field.
Qed.
(** two samples with values and one gradient are accepted; three values for two samples are not *)
Example csi_case : let X := mkArr 2 [[0; 1]; [1; 0]] in let g := mkArr 2 [[1; 1]] in
  check_sample_inputs (Some X) (Some [5; 6]) (Some g) = Some (X, [5; 6], g) /\ check_sample_inputs (Some X) (Some [5; 6; 7]) (Some g) = None /\ check_sample_inputs (Some X) (Some [5; 6]) (Some (mkArr 1 [[1]])) = None.
Proof. repeat split. Qed.
(** two coordinates, starting matrix diag(0, 1): the scales are 1 and e *)
Example start_case : make_L GDiag 2 (gp_ell0 GDiag 2 [[0; 0]; [0; 1]]) = [[1; 0]; [0; exp 1]].
Proof. rewrite (proj2 (start_value 2 _)). cbn [map seq mget nth]. unfold mget, vget. cbn [nth]. rewrite exp_0. reflexivity. Qed.
