(** Concrete samples for C136: the data of VarproCases with a second output, and four samples in four dimensions. *)
Require Import Reals Lra Lia List Bool Arith ZArith.
From Verif Require Import RVec Num Sums DomModel DomMoreModel SweepProofs HullProofs Deriv BasisModel IndexProofs PolyProofs MatLib SpecProofs GrassLib LipModel LipFitProofs SubModel ActiveProofs RidgeModel RidgeProofs TrajProofs PolySpan VarproLib VarproProofs GnStep RidgeFitProofs ArnoldiProofs ArnoldiMoreProofs PolyfitModel PolyfitProofs LsqAlg ProjGradProofs VarproCases RidgeFitCases VarAffine VarArnModel VarArnProofs VarArnDeriv VarArnMain VarArnCases VarVecModel VarVecProofs VarVecMain VarVecStep VarVecInst VarVecRank.
Import ListNotations.
Local Open Scope R_scope.

Definition exF2 : vec := [-11; 11; -13; 13].
Definition exC2 (U : list vec) : vec := let y := map (fun x => dot (hd [] U) x) exX in [0; dot y exF2 / dot y y].
Definition exFs : list vec := [exF; exF2].
Definition exCs (U : list vec) : list vec := [exC U; exC2 U].
Lemma exLS2 : forall t, ls_opt (length (indices exB)) (vp_V exB (line [[1; 0]] [[0; 1]] t) exX) exF2 (exC2 (line [[1; 0]] [[0; 1]] t)).
Proof.
  intro t. change (length (indices exB)) with 2%nat. replace (line [[1; 0]] [[0; 1]] t) with [[1; t]] by (unfold line, vadd, vscale; cbn; repeat f_equal; ring). rewrite exV_line. split; auto.
  intros c' Lc. destruct c' as [|a [|b [|]]]; try discriminate Lc. unfold exC2, exX, exF2. cbn [hd map]. rewrite !dot_cons, !dot_nil_l.
  match goal with |- context [?p / ?q] => replace p with (4 * 12) by ring; replace q with (4 * (1 + t * t)) by ring end. assert (P : 0 < 1 + t * t) by nra. set (w := 4 * 12 / (4 * (1 + t * t))). assert (W : w * (1 + t * t) = 12) by (unfold w; field; lra). unfold norm2. apply sqrt_le_1_alt. unfold norm2sq, mv. cbn [map]. rewrite !dot_cons, !dot_nil_l. unfold vsub. cbn [vmap2]. cbn. rewrite !dot_cons, !dot_nil_l.
  assert (0 <= 4 * (a * a) + (4 + 4 * (t * t)) * ((b - w) * (b - w))) by (assert (0 <= a * a) by apply Rle_0_sqr; assert (0 <= (4 + 4 * (t * t)) * ((b - w) * (b - w))) by (apply Rmult_le_pos; [lra|apply Rle_0_sqr]); lra).
  assert (D : (b - w) * ((4 + 4 * (t * t)) * w - 48) = 0) by (replace ((4 + 4 * (t * t)) * w) with (4 * (w * (1 + t * t))) by ring; rewrite W; ring). nra.
Qed.
Lemma exLSs : forall t, ls_all (length (indices exB)) (vp_V exB (line [[1; 0]] [[0; 1]] t) exX) exFs (exCs (line [[1; 0]] [[0; 1]] t)).
Proof. intro t. split; auto. intros o Ho. two o; cbn [nth exFs exCs]; [apply exLS|apply exLS2]. Qed.
Lemma exLS0 : ls_all (length (indices exB)) (vp_V exB [[1; 0]] exX) exFs (exCs [[1; 0]]).
Proof. pose proof (exLSs 0) as H. rewrite exU in H. exact H. Qed.
Lemma exC20 : exC2 [[1; 0]] = [0; 12].
Proof. unfold exC2, exX, exF2. cbn [hd map]. rewrite !dot_cons, !dot_nil_l. apply f_equal2; [reflexivity|]. apply f_equal2; [|reflexivity]. field. Qed.
Lemma exR2 : vp_residual (vp_V exB [[1; 0]] exX) exF2 (exC2 [[1; 0]]) = [1; -1; -1; 1].
Proof. unfold vp_residual. rewrite exV_line, exC20. unfold mv, exF2. cbn [map]. rewrite !dot_cons, !dot_nil_l. unfold vsub. cbn. repeat (apply f_equal2; [lra|]). reflexivity. Qed.
Lemma exJ2 : vp_jac exB [[1; 0]] 2 exX exY exS exZ (exC2 [[1; 0]]) (vp_residual (vp_V exB [[1; 0]] exX) exF2 (exC2 [[1; 0]])) = [[0; 0; 0; 0]; [-12; -12; 12; 12]].
Proof.
  rewrite exR2, exC20. unfold vp_jac. change (seq 0 (2 * length [[1; 0]])) with [0%nat; 1%nat]. cbn [map]. change (0 / length [[1; 0]])%nat with 0%nat. change (1 / length [[1; 0]])%nat with 1%nat. change (0 mod length [[1; 0]])%nat with 0%nat. change (1 mod length [[1; 0]])%nat with 0%nat. rewrite !exDVk. change (length (indices exB)) with 2%nat. change (length exX) with 4%nat.
  unfold vp_col, vp_proj, vp_pinvT, mtv, lincomb, exX, exY, exS, exZ, mv. cbn. unfold vget. cbn. rewrite ?dot_cons, ?dot_nil_l, ?dot_nil_r. unfold vadd, vsub, vscale. cbn. rewrite ?dot_cons, ?dot_nil_l.
  repeat (apply f_equal2; [lra|]). apply f_equal2; [|apply f_equal2; [|reflexivity]]; repeat (apply f_equal2; [lra|]); reflexivity.
Qed.
Definition exJv : list vec := [[0; 0; 0; 0; 0; 0; 0; 0]; [1; -7; 7; -1; -12; -12; 12; 12]].
Lemma exRs : vv_residual (vp_V exB [[1; 0]] exX) exFs (exCs [[1; 0]]) = [4; 4; -4; -4; 1; -1; -1; 1].
Proof. unfold vv_residual, exFs, exCs. cbn [combine map fst snd]. rewrite exR, exR2. reflexivity. Qed.
Lemma exJs : vv_jac exB [[1; 0]] 2 exX exY exS exZ exFs (exCs [[1; 0]]) = exJv.
Proof. unfold vv_jac, exFs, exCs. cbn [combine map fst snd]. pose proof exJ as E. unfold gn_jac in E. rewrite E, exJ2. reflexivity. Qed.
Lemma exPre2 : vv_pre exB 2 [[1; 0]] exX exFs (exCs [[1; 0]]) exY exS exZ.
Proof. split; [apply exB_ok|]. split; [repeat constructor|]. split; [repeat constructor|]. split; [repeat constructor|]. split; [apply exSVD|apply exLS0]. Qed.
Lemma one_orth : forall u : vec, dot u u = 1 -> orthonormal [u].
Proof. intros u H a b Ha Hb. cbn in Ha, Hb. replace a with 0%nat by lia. replace b with 0%nat by lia. cbn. auto. Qed.
Lemma exOrth : orthonormal [[1; 0]].
Proof. apply one_orth. rewrite !dot_cons, !dot_nil_l. lra. Qed.
(** the residual of two outputs along the first coordinate, the best; other coefficients give another *)
Example vec_residual_case : ls_all (length (indices exB)) (vp_V exB [[1; 0]] exX) exFs (exCs [[1; 0]]) /\ vv_residual (vp_V exB [[1; 0]] exX) exFs (exCs [[1; 0]]) = [4; 4; -4; -4; 1; -1; -1; 1] /\
  vv_residual (vp_V exB [[1; 0]] exX) exFs (exCs [[1; 0]]) <> vv_residual (vp_V exB [[1; 0]] exX) exFs [[0; 3]; [0; 0]] /\ same_span 2 [[1; 0]] [[1; 0]].
Proof.
  split; [apply exLS0|]. split; [apply exRs|]. split; [|intro x; reflexivity]. rewrite exRs. unfold vv_residual, exFs. cbn [combine map fst snd]. intro E. apply (f_equal (fun v => vget v 4)) in E. revert E. unfold vp_residual, exF, exF2, vget. rewrite exV_line. unfold mv. cbn. rewrite !dot_cons, !dot_nil_l. lra.
Qed.
(** two ways of writing the same line, for [vec_subspace] *)
Lemma exLSn : ls_all (length (indices exB)) (vp_V exB [[-1; 0]] exX) exFs [[0; -3]; [0; -12]].
Proof.
  split; auto. change (length (indices exB)) with 2%nat. rewrite exV_line. intros o Ho. two o; cbn [nth exFs]; (split; [reflexivity|]; intros c' Lc; destruct c' as [|a [|b [|]]]; try discriminate Lc; unfold norm2; apply sqrt_le_1_alt; unfold norm2sq, mv, exF, exF2; cbn [map]; rewrite !dot_cons, !dot_nil_l; unfold vsub; cbn; rewrite !dot_cons, !dot_nil_l).
  - assert (0 <= a * a) by apply Rle_0_sqr. assert (0 <= (b + 3) * (b + 3)) by apply Rle_0_sqr. nra.
  - assert (0 <= a * a) by apply Rle_0_sqr. assert (0 <= (b + 12) * (b + 12)) by apply Rle_0_sqr. nra.
Qed.
Example vec_subspace_case : same_span 2 [[1; 0]] [[-1; 0]] /\ ls_all (length (indices exB)) (vp_V exB [[1; 0]] exX) exFs (exCs [[1; 0]]) /\ ls_all (length (indices exB)) (vp_V exB [[-1; 0]] exX) exFs [[0; -3]; [0; -12]] /\
  vv_residual (vp_V exB [[1; 0]] exX) exFs (exCs [[1; 0]]) <> vzero 8.
Proof.
  split; [|split; [apply exLS0|split; [apply exLSn|]]].
  - intro x. split; intros [a [La ->]]; destruct a as [|a [|]]; try discriminate La; exists [- a]; (split; [reflexivity|]); unfold lincomb; cbn; repeat (apply f_equal2; [lra|]); reflexivity.
  - rewrite exRs. unfold vzero. cbn. intro E. injection E. lra.
Qed.
(** the Jacobian there; the line turned, the second residual of the first output falls and the first of the second *)
Example vec_jacobian_case : near (fun t => let U := line [[1; 0]] [[0; 1]] t in basis_ok exB 1 /\ tb_deg exB = tb_deg exB /\ ls_all (length (indices exB)) (vp_V exB U exX) exFs (exCs U)) /\
  svd_mat (length exX) (length (indices exB)) (vp_V exB [[1; 0]] exX) exY exS exZ /\ (forall k, (k < length exS)%nat -> vget exS k <> 0) /\
  vv_jac exB [[1; 0]] 2 exX exY exS exZ exFs (exCs [[1; 0]]) = exJv /\ derivable_pt_lim (fun t => vget (vv_residual (vp_V exB (line [[1; 0]] [[0; 1]] t) exX) exFs (exCs (line [[1; 0]] [[0; 1]] t))) 4) 0 (-12).
Proof.
  assert (NR : near (fun t => let U := line [[1; 0]] [[0; 1]] t in basis_ok exB 1 /\ tb_deg exB = tb_deg exB /\ ls_all (length (indices exB)) (vp_V exB U exX) exFs (exCs U))) by (exists 1; split; [lra|]; intros t _; cbv zeta; split; [apply exB_ok|split; [reflexivity|apply exLSs]]).
  split; auto. split; [apply exSVD|]. split; [apply va_exS|]. split; [apply exJs|].
  destruct (vec_jacobian (fun _ => exB) exCs 2 [[1; 0]] [[0; 1]] exX exFs exY exS exZ eq_refl ltac:(repeat constructor) ltac:(repeat constructor) ltac:(repeat constructor) ltac:(repeat constructor) NR exSVD va_exS) as (_ & _ & D).
  specialize (D 4%nat ltac:(cbn; lia)). rewrite exJs in D. replace (-12) with (vget (lincomb (length exFs * length exX) exJv (flat 2 [[0; 1]])) 4); [exact D|]. unfold exJv, flat, lincomb. cbn. unfold vget. cbn. lra.
Qed.
Lemma va_pre2 : forall f, In f exFs -> va_pre 1 2 [[1; 0]] exX f.
Proof. intros f I. pose proof (va_ex_pre 1 ltac:(lra)) as (H1 & H2 & H3 & H4 & _ & H6). split; auto. split; auto. split; auto. split; auto. split; auto. destruct I as [<-|[<-|[]]]; reflexivity. Qed.
Lemma va_Js : va_vec_jac 1 2 [[1; 0]] exX exFs = Some exJv.
Proof. rewrite (arn_vec_same_jacobian 1 2 [[1; 0]] exX exFs exB exY exS exZ (exCs [[1; 0]]) va_pre2 exB_ok eq_refl exSVD va_exS exLS0). rewrite exJs. reflexivity. Qed.
Lemma va_Rs : va_vec_residual 1 [[1; 0]] exX exFs = Some [4; 4; -4; -4; 1; -1; -1; 1].
Proof. rewrite (arn_vec_same 1 2 [[1; 0]] exX exFs exB 1 [[1; 0]] (exCs [[1; 0]]) va_pre2 exB_ok eq_refl eq_refl ltac:(repeat constructor) ltac:(intro x; reflexivity) exLS0). rewrite exRs. reflexivity. Qed.
(** the same with the Arnoldi basis *)
Example arn_vec_case : (forall f, In f exFs -> va_pre 1 2 [[1; 0]] exX f) /\ va_vec_residual 1 [[1; 0]] exX exFs = Some [4; 4; -4; -4; 1; -1; -1; 1] /\ va_vec_jac 1 2 [[1; 0]] exX exFs = Some exJv /\ within 2 [[1; 0]] [[5; 0]] /\ ~ within 2 [[1; 0]] [[0; 1]].
Proof. split; [apply va_pre2|]. split; [apply va_Rs|]. split; [apply va_Js|]. apply arn_kernel_case. Qed.
Definition exYv : list vec := [[1/26; -7/26; 7/26; -1/26; -12/26; -12/26; 12/26; 12/26]; [1/2; 1/2; 1/2; 1/2; 0; 0; 0; 0]].
Definition exSv : vec := [26; 0].
Definition exZv : list vec := [[0; 1]; [1; 0]].
Lemma exSVDv : gn_svd 8 1 exJv exYv exSv exZv.
Proof.
  split.
  - split; auto. split; [repeat constructor|]. split; [intros a b Ha Hb; two a; two b; cbn; rewrite !dot_cons, !dot_nil_l; lra|]. split; auto. split; [split; auto; split; [repeat constructor|]; intros a b Ha Hb; two a; two b; cbn; rewrite !dot_cons, !dot_nil_l; lra|].
    intros c Hc. two c; unfold lincomb; cbn; unfold vget; cbn; repeat (apply f_equal2; [lra|]); reflexivity.
  - split; [intros i j Hi Hj; two j; two i; try (exfalso; lia); unfold vget, exSv; cbn; lra|]. intros i Hi. cbn in Hi. replace i with 0%nat by lia. unfold vget, exSv. cbn. lra.
Qed.
(** the step for two outputs turns the line towards the second coordinate *)
Example vec_step_case : vv_pre exB 2 [[1; 0]] exX exFs (exCs [[1; 0]]) exY exS exZ /\ orthonormal [[1; 0]] /\ vv_jac exB [[1; 0]] 2 exX exY exS exZ exFs (exCs [[1; 0]]) = exJv /\ va_vec_jac 1 2 [[1; 0]] exX exFs = Some exJv /\ gn_svd 8 1 exJv exYv exSv exZv /\
  gn_solve (2 * 1) 1 exYv exSv exZv (vv_residual (vp_V exB [[1; 0]] exX) exFs (exCs [[1; 0]])) = [0; 12/169].
Proof.
  split; [apply exPre2|]. split; [apply exOrth|]. split; [apply exJs|]. split; [apply va_Js|]. split; [apply exSVDv|]. rewrite exRs. unfold gn_solve, lincomb, exYv, exSv, exZv. cbn. unfold vscale, vget. cbn. rewrite ?dot_cons, ?dot_nil_l. repeat (apply f_equal2; [lra|]). reflexivity.
Qed.
(* ---------------- four samples in four dimensions ---------------- *)
Definition fwX : mat := [[-1; 1; 1; 1]; [1; 1; -1; 1]; [-1; -1; -1; 1]; [1; -1; 1; 1]].
Definition fwU : list vec := [[1; 0; 0; 0]].
Lemma fwV : vp_V exB fwU fwX = [[1; -1]; [1; 1]; [1; -1]; [1; 1]].
Proof. unfold vp_V, fwU, fwX, mv. cbn [map]. rewrite !exV, !dot_cons, !dot_nil_l. repeat (apply f_equal2; [|try reflexivity]); repeat (apply f_equal2; [|try reflexivity]); try reflexivity; try ring. Qed.
Lemma fwVe : vp_V exB fwU fwX = vp_V exB [[1; 0]] exX.
Proof. rewrite fwV, exV_line. repeat (apply f_equal2; [repeat (apply f_equal2; [lra|]); reflexivity|]). reflexivity. Qed.
Lemma fwPre : vv_pre exB 4 fwU fwX [exF] [exC [[1; 0]]] exY exS exZ.
Proof.
  split; [apply exB_ok|]. split; [repeat constructor|]. split; [repeat constructor|]. split; [repeat constructor|]. rewrite fwVe. split; [exact exSVD|]. split; auto. intros o Ho. cbn in Ho. replace o with 0%nat by lia. cbn [nth]. apply va_exLS.
Qed.
Lemma fwInd : aff_indep fwU fwX.
Proof.
  intros b0 b H. assert (H0 := H 0%nat ltac:(cbn; lia)). assert (H1 := H 1%nat ltac:(cbn; lia)). revert H0 H1. unfold fwU, fwX. cbn. unfold vget, mv. cbn. rewrite !dot_cons, !dot_nil_l. intros H0 H1. split; [lra|]. intros q Hq. replace q with 0%nat by lia. lra.
Qed.
Definition fwJv : list vec := [[0; 0; 0; 0]; [1; -7; 7; -1]; [-3; 3; 3; -3]; [0; 0; 0; 0]].
Lemma fwDVk : forall k, vp_dv exB fwU fwX k 0 = map (fun x => [vget x k * 0; vget x k * 1]) fwX.
Proof. intro k. unfold vp_dv, fwX, mv, fwU. cbn [map]. rewrite !exDV. reflexivity. Qed.
Lemma fwJ : vv_jac exB fwU 4 fwX exY exS exZ [exF] [exC [[1; 0]]] = fwJv.
Proof.
  unfold vv_jac. cbn [combine map fst snd]. rewrite fwVe, exR, exC0. assert (E : vp_jac exB fwU 4 fwX exY exS exZ [0; 3] [4; 4; -4; -4] = fwJv).
  { unfold vp_jac. change (seq 0 (4 * length fwU)) with [0; 1; 2; 3]%nat. cbn [map]. change (0 / length fwU)%nat with 0%nat. change (1 / length fwU)%nat with 1%nat. change (2 / length fwU)%nat with 2%nat. change (3 / length fwU)%nat with 3%nat. change (0 mod length fwU)%nat with 0%nat. change (1 mod length fwU)%nat with 0%nat. change (2 mod length fwU)%nat with 0%nat. change (3 mod length fwU)%nat with 0%nat. rewrite !fwDVk. change (length (indices exB)) with 2%nat. change (length fwX) with 4%nat.
    unfold vp_col, vp_proj, vp_pinvT, mtv, lincomb, fwX, exY, exS, exZ, mv, fwJv. cbn. unfold vget. cbn. rewrite ?dot_cons, ?dot_nil_l, ?dot_nil_r. unfold vadd, vsub, vscale. cbn. rewrite ?dot_cons, ?dot_nil_l.
    repeat (apply f_equal2; [repeat (apply f_equal2; [lra|]); reflexivity|]). reflexivity. }
  rewrite E. reflexivity.
Qed.
Definition fwY : list vec := [[1/10; -7/10; 7/10; -1/10]; [-1/2; 1/2; 1/2; -1/2]; [1/2; 1/2; 1/2; 1/2]; [7/10; 1/10; -1/10; -7/10]].
Definition fwS : vec := [10; 6; 0; 0].
Definition fwZ : list vec := [[0; 1; 0; 0]; [0; 0; 1; 0]; [1; 0; 0; 0]; [0; 0; 0; 1]].
Ltac four a := destruct a as [|[|[|[|a]]]]; [| | | |exfalso; cbn in *; lia].
Lemma fwSVD : svd_thin 4 fwJv fwY fwS fwZ.
Proof.
  split; auto. split; [repeat constructor|]. split; [intros a b Ha Hb; four a; four b; cbn; rewrite !dot_cons, !dot_nil_l; lra|]. split; auto. split; [repeat constructor|]. split; [intros a b Ha Hb; four a; four b; cbn; rewrite !dot_cons, !dot_nil_l; lra|].
  split; [intros c Hc; four c; unfold lincomb, col; cbn; unfold vget; cbn; repeat (apply f_equal2; [lra|]); reflexivity|].
  intros i j Hi Hj. four j; four i; try (exfalso; lia); unfold vget, fwS; cbn; lra.
Qed.
(** hypotheses of the bound on the rank, reached: two nonzero singular values of three kept, and the third divided by *)
Example vec_rank_case : vv_pre exB 4 fwU fwX [exF] [exC [[1; 0]]] exY exS exZ /\ aff_indep fwU fwX /\ svd_thin (length [exF] * length fwX) (vv_jac exB fwU 4 fwX exY exS exZ [exF] [exC [[1; 0]]]) fwY fwS fwZ /\
  (length fwU * (length fwX - (length fwU + 1)) = 2)%nat /\ vget fwS 1 <> 0 /\ vget fwS 2 = 0 /\ gn_keep (length fwU) fwS = 3%nat.
Proof. split; [apply fwPre|]. split; [apply fwInd|]. split; [rewrite fwJ; apply fwSVD|]. split; [reflexivity|]. unfold vget, fwS. cbn. split; [lra|]. split; [lra|reflexivity]. Qed.
Example vec_few_case : (length fwX <= 4)%nat /\ (length fwU < 4)%nat /\ length fwS = (4 * length fwU)%nat.
Proof. split; [cbn; lia|]. split; [cbn; lia|]. reflexivity. Qed.
Lemma fwY0 : map (mv fwU) fwX = [[-1]; [1]; [-1]; [1]].
Proof. unfold fwU, fwX, mv. cbn [map]. rewrite !dot_cons, !dot_nil_l. repeat (apply f_equal2; [apply f_equal2; [ring|reflexivity]|]). reflexivity. Qed.
Lemma fw_pre : va_pre 1 4 fwU fwX exF.
Proof.
  split; [cbn; lia|]. split; [discriminate|]. split; [repeat constructor|]. split; [repeat constructor|]. split; [reflexivity|]. intros c H k Hk. change (length fwU) with 1%nat in *. rewrite va_idx1 in Hk. cbn in Hk. rewrite fwY0 in H. assert (H0 := H [-1] ltac:(cbn; auto)). assert (H1 := H [1] ltac:(cbn; auto)). rewrite va_poly1 in H0, H1. destruct k as [|[|k]]; [lra|lra|lia].
Qed.
Example arn_rank_case : (forall f, In f [exF] -> va_pre 1 4 fwU fwX f) /\ aff_indep fwU fwX /\ va_vec_jac 1 4 fwU fwX [exF] = Some fwJv /\ svd_thin (length [exF] * length fwX) fwJv fwY fwS fwZ.
Proof.
  assert (P : forall f, In f [exF] -> va_pre 1 4 fwU fwX f) by (intros f [<-|[]]; apply fw_pre). split; auto. split; [apply fwInd|]. split; [|apply fwSVD]. pose proof fwPre as (_ & _ & _ & _ & S & L).
  rewrite (arn_vec_same_jacobian 1 4 fwU fwX [exF] exB exY exS exZ [exC [[1; 0]]] P exB_ok eq_refl S va_exS L). rewrite fwJ. reflexivity.
Qed.
(* ---------------- fixed subspace ---------------- *)
Definition hF2 : vec := [12; -12; -12; 12].
Definition hC2 (U : list vec) : vec := let y := map (fun x => dot (nth 1 U []) x) hX in [0; 0; dot y hF2 / dot y y].
Definition hFs : list vec := [hF; hF2].
Definition hCs (U : list vec) : list vec := [hC U; hC2 U].
Definition hU0 : list vec := [[1; 0; 0]; [0; 1; 0]].
Lemma hLS2 : forall t, ls_opt (length (indices hB)) (vp_V hB [[1; 0; 0]; [0; 1; t]] hX) hF2 (hC2 [[1; 0; 0]; [0; 1; t]]).
Proof.
  intro t. change (length (indices hB)) with 3%nat. rewrite hVl. split; auto. intros c' Lc. destruct c' as [|a [|b [|c [|]]]]; try discriminate Lc. unfold hC2, hX, hF2. cbn [nth map]. rewrite !dot_cons, !dot_nil_l.
  match goal with |- context [?p / ?q] => replace p with (4 * (12 * t)) by ring; replace q with (4 * (1 + t * t)) by ring end. assert (P : 0 < 1 + t * t) by nra. set (w := 4 * (12 * t) / (4 * (1 + t * t))). assert (W : w * (1 + t * t) = 12 * t) by (unfold w; field; lra). unfold norm2. apply sqrt_le_1_alt. unfold norm2sq, mv. cbn [map]. rewrite !dot_cons, !dot_nil_l. unfold vsub. cbn [vmap2]. cbn. rewrite !dot_cons, !dot_nil_l.
  assert (0 <= 4 * (a * a) + 4 * (b * b) + (4 + 4 * (t * t)) * ((c - w) * (c - w))) by (assert (0 <= a * a) by apply Rle_0_sqr; assert (0 <= b * b) by apply Rle_0_sqr; assert (0 <= (4 + 4 * (t * t)) * ((c - w) * (c - w))) by (apply Rmult_le_pos; [lra|apply Rle_0_sqr]); lra).
  assert (D : (c - w) * ((4 + 4 * (t * t)) * w - 48 * t) = 0) by (replace ((4 + 4 * (t * t)) * w) with (4 * (w * (1 + t * t))) by ring; rewrite W; ring). nra.
Qed.
Lemma hLSs : forall t, ls_all (length (indices hB)) (vp_V hB [[1; 0; 0]; [0; 1; t]] hX) hFs (hCs [[1; 0; 0]; [0; 1; t]]).
Proof. intro t. split; auto. intros o Ho. two o; cbn [nth hFs hCs]; [apply hLS|apply hLS2]. Qed.
Lemma hCs0 : hCs hU0 = [[0; 1; 3]; [0; 0; 0]].
Proof. unfold hCs, hC, hC2, hX, hF, hF2, hU0. cbn [nth map]. rewrite !dot_cons, !dot_nil_l. repeat (apply f_equal2; [repeat (apply f_equal2; [field|]); reflexivity|]). reflexivity. Qed.
Lemma hDV : forall a b, DVrow hB [a; b] = [[0; 0]; [1; 0]; [0; 1]].
Proof. intros a b. unfold DVrow. change (indices hB) with [[0; 0]; [1; 0]; [0; 1]]%nat. cbn. unfold DVent, Dmat. cbn. unfold scale, vget. cbn. rewrite ?dot_cons, ?dot_nil_l. repeat (apply f_equal2; [repeat (apply f_equal2; [ring|]); reflexivity|]). reflexivity. Qed.
Lemma hR : map (fun fc => vp_residual (vp_V hB hU0 hX) (fst fc) (snd fc)) (combine hFs (hCs hU0)) = [[4; -4; -4; 4]; [12; -12; -12; 12]].
Proof.
  rewrite hCs0. unfold hU0. rewrite hVl. unfold vp_residual, hFs, hF, hF2, mv. cbn [combine map fst snd]. rewrite !dot_cons, !dot_nil_l. unfold vsub. cbn. repeat (apply f_equal2; [repeat (apply f_equal2; [ring|]); reflexivity|]). reflexivity.
Qed.
Lemma hDVk : forall k l, (l < 2)%nat -> vp_dv hB hU0 hX k l = map (fun x => [vget x k * 0; vget x k * (if Nat.eqb l 0 then 1 else 0); vget x k * (if Nat.eqb l 0 then 0 else 1)]) hX.
Proof. intros k l Hl. unfold vp_dv, hX, hU0, mv. cbn [map]. rewrite !hDV. two l; unfold vget; cbn; reflexivity. Qed.
Definition hJ1 : list vec := [[0; 0; 0; 0]; [0; 0; 0; 0]; [0; 0; 0; 0]; [0; 0; 0; 0]; [3; 5; -3; -5]; [1; -1; 7; -7]].
Definition hJ2 : list vec := [[0; 0; 0; 0]; [0; 0; 0; 0]; [0; 0; 0; 0]; [0; 0; 0; 0]; [12; 12; -12; -12]; [12; -12; 12; -12]].
Lemma hJac : forall p q r, vp_jac hB hU0 3 hX hY hS hZ [0; p; q] [r; - r; - r; r] = [[0; 0; 0; 0]; [0; 0; 0; 0]; [0; 0; 0; 0]; [0; 0; 0; 0]; [r - p; r + p; - r + p; - r - p]; [r - q; - r + q; r + q; - r - q]].
Proof.
  intros p q r. unfold vp_jac. change (seq 0 (3 * length hU0)) with [0; 1; 2; 3; 4; 5]%nat. cbn [map]. change (length hU0) with 2%nat.
  change (0 / 2)%nat with 0%nat. change (1 / 2)%nat with 0%nat. change (2 / 2)%nat with 1%nat. change (3 / 2)%nat with 1%nat. change (4 / 2)%nat with 2%nat. change (5 / 2)%nat with 2%nat.
  change (0 mod 2)%nat with 0%nat. change (1 mod 2)%nat with 1%nat. change (2 mod 2)%nat with 0%nat. change (3 mod 2)%nat with 1%nat. change (4 mod 2)%nat with 0%nat. change (5 mod 2)%nat with 1%nat. rewrite !hDVk by lia. change (length (indices hB)) with 3%nat. change (length hX) with 4%nat.
  unfold vp_col, vp_proj, vp_pinvT, mtv, lincomb, hX, hY, hS, hZ, mv. cbn. unfold vget. cbn. rewrite ?dot_cons, ?dot_nil_l, ?dot_nil_r. unfold vadd, vsub, vscale. cbn. rewrite ?dot_cons, ?dot_nil_l.
  repeat (apply f_equal2; [repeat (apply f_equal2; [field|]); reflexivity|]). reflexivity.
Qed.
Lemma hJv : vv_jac hB hU0 3 hX hY hS hZ hFs (hCs hU0) = vstack 6 [hJ1; hJ2].
Proof.
  unfold vv_jac. change (3 * length hU0)%nat with 6%nat. apply f_equal. pose proof hR as R. rewrite hCs0 in R |- *. cbn [combine map fst snd hFs] in R |- *. injection R as R1 R2 R3 R4 R5 R6 R7 R8.
  assert (E1 : vp_residual (vp_V hB hU0 hX) hF [0; 1; 3] = [4; - 4; - 4; 4]) by (pose proof hR as Q; rewrite hCs0 in Q; cbn [combine map fst snd hFs] in Q; exact (f_equal (fun l => nth 0 l []) Q)).
  assert (E2 : vp_residual (vp_V hB hU0 hX) hF2 [0; 0; 0] = [12; - 12; - 12; 12]) by (pose proof hR as Q; rewrite hCs0 in Q; cbn [combine map fst snd hFs] in Q; exact (f_equal (fun l => nth 1 l []) Q)).
  rewrite E1, E2, !hJac. unfold hJ1, hJ2. repeat (apply f_equal2; [repeat (apply f_equal2; [repeat (apply f_equal2; [ring|]); reflexivity|]); reflexivity|]). reflexivity.
Qed.
Definition hJf : list vec := [[0; 0; 0; 0; 0; 0; 0; 0]; [1; -1; 7; -7; 12; -12; 12; -12]].
Lemma hJfE : pv_fixed 8 3 1 1 hUc (vstack 6 [hJ1; hJ2]) = hJf.
Proof.
  unfold pv_fixed, vstack, hJ1, hJ2, hUc, hJf, pv_jac_row. cbn. unfold vget. cbn. repeat (apply f_equal2; [repeat (apply f_equal2; [ring|]); reflexivity|]). reflexivity.
Qed.
Lemma hU0E : pv_join 3 hUf hUc [[1; 0]] = hU0.
Proof. unfold pv_join, hUf, hUc, hU0, lincomb, vadd, vscale. cbn. repeat (apply f_equal2; [repeat (apply f_equal2; [ring|]); reflexivity|]). reflexivity. Qed.
Lemma hPre : vv_pre hB 3 (pv_join 3 hUf hUc [[1; 0]]) hX hFs (hCs (pv_join 3 hUf hUc [[1; 0]])) hY hS hZ.
Proof. rewrite hU0E. split; [apply hB_ok|]. split; [repeat constructor|]. split; [repeat constructor|]. split; [repeat constructor|]. split; [apply hSVD|apply hLSs]. Qed.
Definition hYv : list vec := [[1/26; -1/26; 7/26; -7/26; 12/26; -12/26; 12/26; -12/26]; [1/2; 1/2; 1/2; 1/2; 0; 0; 0; 0]].
Lemma hSVDv : gn_svd 8 1 hJf hYv exSv exZv.
Proof.
  split; [|apply exSVDv].
  split; auto. split; [repeat constructor|]. split; [intros a b Ha Hb; two a; two b; cbn; rewrite !dot_cons, !dot_nil_l; lra|]. split; auto. split; [split; auto; split; [repeat constructor|]; intros a b Ha Hb; two a; two b; cbn; rewrite !dot_cons, !dot_nil_l; lra|].
  intros c Hc. two c; unfold lincomb; cbn; unfold vget; cbn; repeat (apply f_equal2; [lra|]); reflexivity.
Qed.
(** the first coordinate fixed, the second a first guess, two outputs: Jacobian and step *)
Example vec_fixed_case : let U := fun t => pv_join 3 hUf hUc (line [[1; 0]] [[0; 1]] t) in let J := vv_jac hB (pv_join 3 hUf hUc [[1; 0]]) 3 hX hY hS hZ hFs (hCs (pv_join 3 hUf hUc [[1; 0]])) in
  near (fun t => basis_ok hB (length hUf + 1) /\ tb_deg hB = tb_deg hB /\ ls_all (length (indices hB)) (vp_V hB (U t) hX) hFs (hCs (U t))) /\ (forall k, (k < length hS)%nat -> vget hS k <> 0) /\
  vv_pre hB 3 (pv_join 3 hUf hUc [[1; 0]]) hX hFs (hCs (pv_join 3 hUf hUc [[1; 0]])) hY hS hZ /\ pv_fixed 8 3 (length hUf) 1 hUc J = hJf /\ gn_svd 8 1 hJf hYv exSv exZv /\
  gn_solve (2 * 1) 1 hYv exSv exZv (vv_residual (vp_V hB (pv_join 3 hUf hUc [[1; 0]]) hX) hFs (hCs (pv_join 3 hUf hUc [[1; 0]]))) = [0; 12/169].
Proof.
  intros U J. split; [exists 1; split; [lra|]; intros t _; unfold U; rewrite hJ; split; [apply hB_ok|split; [reflexivity|apply hLSs]]|]. split; [intros k Hk; three k; unfold vget, hS; cbn; lra|]. split; [apply hPre|].
  split; [unfold J; rewrite hU0E, hJv; apply hJfE|]. split; [apply hSVDv|]. unfold vv_residual. rewrite hU0E, hR. unfold gn_solve, lincomb, hYv, exSv, exZv. cbn. unfold vscale, vget. cbn. rewrite ?dot_cons, ?dot_nil_l. repeat (apply f_equal2; [lra|]). reflexivity.
Qed.
Lemma h_idx : index_set 1 2 = [[0; 0]; [1; 0]; [0; 1]]%nat. Proof. vm_compute. reflexivity. Qed.
Lemma h_va : forall f, In f hFs -> va_pre 1 3 (pv_join 3 hUf hUc [[1; 0]]) hX f.
Proof.
  intros f I. rewrite hU0E. split; [cbn; lia|]. split; [discriminate|]. split; [repeat constructor|]. split; [repeat constructor|]. split; [destruct I as [<-|[<-|[]]]; reflexivity|]. intros c H k Hk. change (length hU0) with 2%nat in *. rewrite h_idx in Hk. cbn in Hk.
  assert (E : forall a b, poly_of 1 2 c [a; b] = c 0%nat + c 1%nat * a + c 2%nat * b) by (intros a b; unfold poly_of; rewrite h_idx; unfold mono; cbn; ring).
  assert (Y : map (mv hU0) hX = [[-1; -1]; [-1; 1]; [1; -1]; [1; 1]]) by (unfold hU0, hX, mv; cbn [map]; rewrite !dot_cons, !dot_nil_l; repeat (apply f_equal2; [repeat (apply f_equal2; [ring|]); reflexivity|]); reflexivity).
  rewrite Y in H. assert (H0 := H [-1; -1] ltac:(cbn; auto)). assert (H1 := H [-1; 1] ltac:(cbn; auto)). assert (H2 := H [1; -1] ltac:(cbn; auto)). rewrite E in H0, H1, H2. destruct k as [|[|[|k]]]; [lra|lra|lra|lia].
Qed.
Lemma h_S : forall k, (k < length hS)%nat -> vget hS k <> 0.
Proof. intros k Hk. three k; unfold vget, hS; cbn; lra. Qed.
Example arn_fixed_case : (forall f, In f hFs -> va_pre 1 3 (pv_join 3 hUf hUc [[1; 0]]) hX f) /\ orthonormal [[1; 0]] /\ exists J, va_vec_jac 1 3 (pv_join 3 hUf hUc [[1; 0]]) hX hFs = Some J /\ pv_fixed 8 3 (length hUf) 1 hUc J = hJf /\ gn_svd 8 1 (pv_fixed 8 3 (length hUf) 1 hUc J) hYv exSv exZv.
Proof.
  split; [apply h_va|]. split; [apply exOrth|]. exists (vstack 6 [hJ1; hJ2]). assert (P := h_va). pose proof hPre as (_ & _ & _ & _ & S & L). rewrite hU0E in *. split; [|split; [apply hJfE|]].
  - rewrite (arn_vec_same_jacobian 1 3 hU0 hX hFs hB hY hS hZ (hCs hU0) P hB_ok eq_refl S h_S L). rewrite hJv. reflexivity.
  - change (length hUf) with 1%nat. rewrite hJfE. apply hSVDv.
Qed.
(** "the singular values kept are nonzero" fails of exact singular value decompositions with V of full column rank: nothing asks for more than m samples *)
Theorem vec_divides_refuted : exists B m us X fs cs ys s zs yJ sJ zJ, vv_pre B m us X fs cs ys s zs /\ (forall k, (k < length s)%nat -> vget s k <> 0) /\ orthonormal us /\ aff_indep us X /\
  svd_thin (length fs * length X) (vv_jac B us m X ys s zs fs cs) yJ sJ zJ /\ length sJ = (m * length us)%nat /\ (exists i, (i < gn_keep (length us) sJ)%nat /\ vget sJ i = 0) /\ vv_residual (vp_V B us X) fs cs <> vzero (length fs * length X).
Proof.
  exists exB, 4%nat, fwU, fwX, [exF], [exC [[1; 0]]], exY, exS, exZ, fwY, fwS, fwZ. split; [apply fwPre|]. split; [apply va_exS|]. split; [apply one_orth; rewrite !dot_cons, !dot_nil_l; lra|]. split; [apply fwInd|]. split; [rewrite fwJ; apply fwSVD|]. split; [reflexivity|]. split; [exists 2%nat; split; [cbn; lia|reflexivity]|].
  unfold vv_residual. cbn [combine map fst snd]. rewrite fwVe, exR. unfold vzero. cbn. intro E. injection E. lra.
Qed.
