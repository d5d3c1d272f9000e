(** A concrete case of the variable projection theorems: four samples of a linear function of two variables, fitted by a linear
    profile along the wrong direction. *)
Require Import Reals Lra Lia List Bool Arith.
From Verif Require Import RVec Num Sums DomModel DomMoreModel SweepProofs HullProofs Deriv BasisModel IndexProofs PolyProofs MatLib SpecProofs GrassLib LipModel LipFitProofs SubModel ActiveProofs RidgeModel RidgeProofs TrajProofs PolySpan VarproLib VarproProofs GnStep.
Import ListNotations.
Local Open Scope R_scope.

Definition exB : tbasis := mkTB monomials 1 1 NoScale.
Definition exX : mat := [[-1; 1]; [1; 1]; [-1; -1]; [1; -1]].
Definition exF : vec := [1; 7; -7; -1].
(** the least squares coefficients *)
Definition exC (U : list vec) : vec := let y := map (fun x => dot (hd [] U) x) exX in [0; dot y exF / dot y y].
Lemma exV : forall y, Vrow exB [y] = [1; y].
Proof. intro y. unfold Vrow. change (indices exB) with [[0%nat]; [1%nat]]. cbn. unfold scale. cbn. unfold vget. cbn. repeat f_equal; ring. Qed.
Lemma exDV : forall y, DVrow exB [y] = [[0]; [1]].
Proof. intro y. unfold DVrow. change (indices exB) with [[0%nat]; [1%nat]]. cbn. unfold DVent, Dmat. cbn. unfold scale, vget. cbn. rewrite ?dot_cons, ?dot_nil_l. repeat f_equal; try ring. Qed.
Lemma exB_ok : basis_ok exB 1.
Proof. split; [apply monomials_ok|]. split; [apply monomials_rec|]. split; auto. split; auto. intros k Hk. cbn. lra. Qed.
Lemma exV_line : forall a b, vp_V exB [[a; b]] exX = [[1; - a + b]; [1; a + b]; [1; - a - b]; [1; a - b]].
Proof. intros. unfold vp_V, exX, mv. cbn [map]. rewrite !exV, !dot_cons, !dot_nil_l. repeat (apply f_equal2; [|try reflexivity]); repeat (apply f_equal2; [|try reflexivity]); try reflexivity; try ring. Qed.
Lemma exLS : forall t, ls_opt (length (indices exB)) (vp_V exB (line [[1; 0]] [[0; 1]] t) exX) exF (exC (line [[1; 0]] [[0; 1]] t)).
Proof.
  intro t. change (length (indices exB)) with 2%nat. replace (line [[1; 0]] [[0; 1]] t) with [[1; t]] by (unfold line, vadd, vscale; cbn; repeat f_equal; ring). rewrite exV_line. split; auto.
  intros c' Lc. destruct c' as [|a [|b [|]]]; try discriminate Lc. unfold exC, exX, exF. cbn [hd map]. rewrite !dot_cons, !dot_nil_l.
  match goal with |- context [?p / ?q] => replace p with (4 * (3 + 4 * t)) by ring; replace q with (4 * (1 + t * t)) by ring end. assert (P : 0 < 1 + t * t) by nra. set (w := 4 * (3 + 4 * t) / (4 * (1 + t * t))). assert (W : w * (1 + t * t) = 3 + 4 * t) by (unfold w; field; lra). unfold norm2. apply sqrt_le_1_alt. unfold norm2sq, mv. cbn [map]. rewrite !dot_cons, !dot_nil_l. unfold vsub. cbn [vmap2]. cbn. rewrite !dot_cons, !dot_nil_l.
  assert (0 <= 4 * (a * a) + (4 + 4 * (t * t)) * ((b - w) * (b - w))) by (assert (0 <= a * a) by apply Rle_0_sqr; assert (0 <= (4 + 4 * (t * t)) * ((b - w) * (b - w))) by (apply Rmult_le_pos; [lra|apply Rle_0_sqr]); lra).
  assert (D : (b - w) * ((4 + 4 * (t * t)) * w - (12 + 16 * t)) = 0) by (replace ((4 + 4 * (t * t)) * w) with (4 * (w * (1 + t * t))) by ring; rewrite W; ring). nra.
Qed.

Definition exY : list vec := [[1/2; 1/2; 1/2; 1/2]; [-1/2; 1/2; -1/2; 1/2]].
Definition exS : vec := [2; 2].
Definition exZ : list vec := [[1; 0]; [0; 1]].
Ltac two a := let H := fresh in destruct a as [|[|a]]; [| |exfalso; cbn in *; lia].
Lemma exZ_onb : onb 2 exZ.
Proof. split; auto. split; [repeat constructor|]. intros a b Ha Hb. two a; two b; cbn; rewrite !dot_cons, !dot_nil_l; lra. Qed.
Lemma exU : line [[1; 0]] [[0; 1]] 0 = [[1; 0]]. Proof. unfold line, vadd, vscale; cbn; repeat f_equal; ring. Qed.
Lemma exSVD : svd_mat (length exX) (length (indices exB)) (vp_V exB [[1; 0]] exX) exY exS exZ.
Proof.
  unfold svd_mat, cols. rewrite exV_line. change (length (indices exB)) with 2%nat. split; auto. split; [repeat constructor|]. split; [intros a b Ha Hb; two a; two b; cbn; rewrite !dot_cons, !dot_nil_l; lra|]. split; auto. split; [apply exZ_onb|].
  intros c Hc. two c; unfold lincomb; cbn; unfold vget; cbn; repeat (apply f_equal2; [lra|]); reflexivity.
Qed.
Lemma exPre : gn_pre exB 2 1 [[1; 0]] exX exF (exC [[1; 0]]) exY exS exZ.
Proof.
  split; [apply exB_ok|]. split; auto. split; [repeat constructor|]. split; [repeat constructor|]. split; auto. split; [pose proof (exLS 0) as H; rewrite exU in H; exact H|apply exSVD].
Qed.
Lemma exC0 : exC [[1; 0]] = [0; 3].
Proof. unfold exC, exX, exF. cbn [hd map]. rewrite !dot_cons, !dot_nil_l. apply f_equal2; [reflexivity|]. apply f_equal2; [|reflexivity]. field. Qed.
Lemma exR : vp_residual (vp_V exB [[1; 0]] exX) exF (exC [[1; 0]]) = [4; 4; -4; -4].
Proof. unfold vp_residual. rewrite exV_line, exC0. unfold mv, exF. cbn [map]. rewrite !dot_cons, !dot_nil_l. unfold vsub. cbn. repeat (apply f_equal2; [lra|]). reflexivity. Qed.
Lemma exDVk : forall k, vp_dv exB [[1; 0]] exX k 0 = map (fun x => [vget x k * 0; vget x k * 1]) exX.
Proof. intro k. unfold vp_dv, exX, mv. cbn [map]. rewrite !exDV. reflexivity. Qed.
Lemma exJ : gn_jac exB 2 [[1; 0]] exX exF (exC [[1; 0]]) exY exS exZ = [[0; 0; 0; 0]; [1; -7; 7; -1]].
Proof.
  unfold gn_jac. rewrite exR, exC0. unfold vp_jac. change (seq 0 (2 * length [[1; 0]])) with [0%nat; 1%nat]. cbn [map]. change (0 / length [[1; 0]])%nat with 0%nat. change (1 / length [[1; 0]])%nat with 1%nat. change (0 mod length [[1; 0]])%nat with 0%nat. change (1 mod length [[1; 0]])%nat with 0%nat. rewrite !exDVk. change (length (indices exB)) with 2%nat. change (length exX) with 4%nat.
  unfold vp_col, vp_proj, vp_pinvT, mtv, lincomb, exX, exY, exS, exZ, mv. cbn. unfold vget. cbn. rewrite ?dot_cons, ?dot_nil_l, ?dot_nil_r. unfold vadd, vsub, vscale. cbn. rewrite ?dot_cons, ?dot_nil_l.
  repeat (apply f_equal2; [lra|]). apply f_equal2; [|apply f_equal2; [|reflexivity]]; repeat (apply f_equal2; [lra|]); reflexivity.
Qed.
Definition exYJ : list vec := [[1/10; -7/10; 7/10; -1/10]; [1/2; 1/2; 1/2; 1/2]].
Definition exSJ : vec := [10; 0].
Definition exZJ : list vec := [[0; 1]; [1; 0]].
Lemma exSVDJ : svd_post (length exX) (gn_jac exB 2 [[1; 0]] exX exF (exC [[1; 0]]) exY exS exZ) exYJ exSJ exZJ.
Proof.
  rewrite exJ. split; auto. split; [repeat constructor|]. split; [intros a b Ha Hb; two a; two b; cbn; rewrite !dot_cons, !dot_nil_l; lra|]. split; auto.
  split; [split; auto; split; [repeat constructor|]; intros a b Ha Hb; two a; two b; cbn; rewrite !dot_cons, !dot_nil_l; lra|].
  intros c Hc. two c; unfold lincomb; cbn; unfold vget; cbn; repeat (apply f_equal2; [lra|]); reflexivity.
Qed.
(** hypotheses of varpro_jacobian_correct; the derivative is not zero *)
Example jac_case : near (fun t => let U := line [[1; 0]] [[0; 1]] t in basis_ok exB 1 /\ tb_deg exB = tb_deg exB /\ ls_opt (length (indices exB)) (vp_V exB U exX) exF (exC U)) /\
  svd_mat (length exX) (length (indices exB)) (vp_V exB [[1; 0]] exX) exY exS exZ /\ (forall k, (k < length exS)%nat -> vget exS k <> 0) /\
  derivable_pt_lim (fun t => let U := line [[1; 0]] [[0; 1]] t in vget (vp_residual (vp_V exB U exX) exF (exC U)) 1) 0 (-7).
Proof.
  assert (NR : near (fun t => let U := line [[1; 0]] [[0; 1]] t in basis_ok exB 1 /\ tb_deg exB = tb_deg exB /\ ls_opt (length (indices exB)) (vp_V exB U exX) exF (exC U))) by (exists 1; split; [lra|]; intros t _; cbv zeta; split; [apply exB_ok|split; [reflexivity|apply exLS]]).
  assert (NS : forall k, (k < length exS)%nat -> vget exS k <> 0) by (intros k Hk; two k; unfold vget, exS; cbn; lra).
  split; auto. split; [apply exSVD|]. split; auto.
  pose proof (varpro_jacobian_correct (fun _ => exB) exC 2 1 [[1; 0]] [[0; 1]] exX exF exY exS exZ 1 eq_refl eq_refl ltac:(repeat constructor) ltac:(repeat constructor) ltac:(repeat constructor) eq_refl ltac:(cbn; lia) NR exSVD NS) as D.
  cbv beta in D. pose proof exJ as EJ. unfold gn_jac in EJ. rewrite EJ in D. replace (-7) with (vget (lincomb (length exX) [[0; 0; 0; 0]; [1; -7; 7; -1]] (flat 2 [[0; 1]])) 1); [exact D|]. unfold flat, lincomb. cbn. unfold vget. cbn. lra.
Qed.
(** hypotheses of gn_step_horizontal and gn_step_minimises; the step is not zero *)
Example step_case : gn_pre exB 2 1 [[1; 0]] exX exF (exC [[1; 0]]) exY exS exZ /\ svd_post (length exX) (gn_jac exB 2 [[1; 0]] exX exF (exC [[1; 0]]) exY exS exZ) exYJ exSJ exZJ /\ orthonormal [[1; 0]] /\
  (forall i j, (i <= j)%nat -> (j < length exSJ)%nat -> 0 <= vget exSJ j <= vget exSJ i) /\ (forall i, (i < gn_keep 1 exSJ)%nat -> vget exSJ i <> 0) /\
  unflat 2 1 (gn_solve (2 * 1) 1 exYJ exSJ exZJ (vp_residual (vp_V exB [[1; 0]] exX) exF (exC [[1; 0]]))) = [[0; 12/25]].
Proof.
  split; [apply exPre|]. split; [apply exSVDJ|]. split; [intros a b Ha Hb; cbn in Ha, Hb; replace a with 0%nat by lia; replace b with 0%nat by lia; cbn; rewrite !dot_cons, !dot_nil_l; lra|].
  split; [intros i j Hi Hj; two j; two i; try (exfalso; lia); unfold vget, exSJ; cbn; lra|]. split; [intros i Hi; cbn in Hi; replace i with 0%nat by lia; unfold vget, exSJ; cbn; lra|].
  rewrite exR. unfold gn_solve, unflat, lincomb, exYJ, exSJ, exZJ. cbn. unfold vscale, vget. cbn. rewrite ?dot_cons, ?dot_nil_l. apply f_equal2; [|reflexivity]. repeat (apply f_equal2; [lra|]). reflexivity.
Qed.
(** a reversed and rescaled basis of the same line *)
Example subspace_case : exists B B' us us' X f c c', basis_ok B 1 /\ basis_ok B' 1 /\ tb_deg B' = tb_deg B /\ same_span 2 us us' /\ us <> us' /\ Forall (fun x : vec => length x = 2%nat) X /\ length f = length X /\
  ls_opt (length (indices B)) (vp_V B us X) f c /\ ls_opt (length (indices B')) (vp_V B' us' X) f c' /\ vp_residual (vp_V B us X) f c <> vzero (length X).
Proof.
  exists exB, exB, [[1; 0]], [[-2; 0]], exX, exF, (exC [[1; 0]]), (exC [[-2; 0]]). split; [apply exB_ok|]. split; [apply exB_ok|]. split; auto. split.
  - intro x. split; intros [a [La ->]]; destruct a as [|a [|]]; try discriminate La.
    + exists [- a / 2]. split; auto. unfold lincomb. cbn. repeat (apply f_equal2; [lra|]). reflexivity.
    + exists [-2 * a]. split; auto. unfold lincomb. cbn. repeat (apply f_equal2; [lra|]). reflexivity.
  - split; [intro E; injection E; lra|]. split; [repeat constructor|]. split; auto. split; [pose proof (exLS 0) as H; rewrite exU in H; exact H|]. split.
    + change (length (indices exB)) with 2%nat. rewrite exV_line. split; auto. intros c' Lc. destruct c' as [|a [|b [|]]]; try discriminate Lc. unfold exC, exX, exF. cbn [hd map]. rewrite !dot_cons, !dot_nil_l.
      match goal with |- context [?p / ?q] => replace (p / q) with (-3/2) by field end. unfold norm2. apply sqrt_le_1_alt. unfold norm2sq, mv. cbn [map]. rewrite !dot_cons, !dot_nil_l. unfold vsub. cbn. rewrite !dot_cons, !dot_nil_l.
      assert (0 <= a * a) by apply Rle_0_sqr. assert (0 <= (b + 3/2) * (b + 3/2)) by apply Rle_0_sqr. nra.
    + rewrite exR. unfold vzero. cbn. intro E. injection E. lra.
Qed.
