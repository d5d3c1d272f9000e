(** Concrete samples for C135: the data of VarproCases. *)
Require Import Reals Lra Lia List Bool Arith ZArith.
From Verif Require Import RVec Num Sums DomModel DomMoreModel SweepProofs HullProofs Deriv BasisModel IndexProofs PolyProofs MatLib SpecProofs GrassLib LipModel LipFitProofs SubModel ActiveProofs RidgeModel RidgeProofs TrajProofs PolySpan VarproLib VarproProofs GnStep ArnoldiProofs ArnoldiMoreProofs PolyfitModel PolyfitProofs LsqAlg ProjGradProofs VarproCases VarArnModel VarArnProofs VarArnDeriv VarArnMain.
Import ListNotations.
Local Open Scope R_scope.

Lemma va_idx1 : index_set 1 1 = [[0]; [1]]%nat. Proof. vm_compute. reflexivity. Qed.
Lemma va_idx2 : index_set 2 1 = [[0]; [1]; [2]]%nat. Proof. vm_compute. reflexivity. Qed.
Lemma va_poly1 : forall c y, poly_of 1 1 c [y] = c 0%nat + c 1%nat * y.
Proof. intros. unfold poly_of. rewrite va_idx1. unfold mono. cbn. ring. Qed.
Lemma va_poly2 : forall c y, poly_of 2 1 c [y] = c 0%nat + c 1%nat * y + c 2%nat * (y * y).
Proof. intros. unfold poly_of. rewrite va_idx2. unfold mono. cbn. ring. Qed.
Lemma va_Y : forall a b, map (mv [[a; b]]) exX = [[- a + b]; [a + b]; [- a - b]; [a - b]].
Proof. intros. unfold exX, mv. cbn [map]. rewrite !dot_cons, !dot_nil_l. repeat (apply f_equal2; [apply f_equal2; [ring|reflexivity]|]). reflexivity. Qed.
Lemma va_uni : forall a, a <> 0 -> unisolvent 1 1 (map (mv [[a; 0]]) exX).
Proof.
  intros a Na c H k Hk. rewrite va_idx1 in Hk. cbn in Hk. rewrite va_Y in H. assert (H0 := H [- a + 0] ltac:(cbn; auto)). assert (H1 := H [a + 0] ltac:(cbn; auto)). rewrite va_poly1 in H0, H1.
  destruct k as [|[|k]]; [lra| |lia]. apply (Rmult_eq_reg_r a); auto. lra.
Qed.
Lemma va_ex_pre : forall a, a <> 0 -> va_pre 1 2 [[a; 0]] exX exF.
Proof. intros a Na. split; [cbn; lia|]. split; [discriminate|]. split; [repeat constructor|]. split; [repeat constructor|]. split; [reflexivity|]. apply va_uni; auto. Qed.
Lemma va_exLS : ls_opt (length (indices exB)) (vp_V exB [[1; 0]] exX) exF (exC [[1; 0]]).
Proof. pose proof (exLS 0) as H. rewrite exU in H. exact H. Qed.
Lemma va_span : forall a, a <> 0 -> same_span 2 [[a; 0]] [[1; 0]].
Proof.
  intros a Na x. split; intros [e [Le ->]]; destruct e as [|e [|]]; try discriminate Le.
  - exists [a * e]. split; auto. unfold lincomb. cbn. repeat (apply f_equal2; [lra|]). reflexivity.
  - exists [e / a]. split; auto. unfold lincomb. cbn. apply f_equal2; [field; auto|]. apply f_equal2; [field; auto|]. reflexivity.
Qed.
(** the residual along the first coordinate, from two different bases of the line *)
Example arn_residual_case : forall a, a <> 0 -> va_pre 1 2 [[a; 0]] exX exF /\ same_span 2 [[a; 0]] [[1; 0]] /\ va_residual 1 [[a; 0]] exX exF = Some [4; 4; -4; -4].
Proof.
  intros a Na. split; [apply va_ex_pre; auto|]. split; [apply va_span; auto|].
  rewrite (arn_same_residual 1 2 [[a; 0]] exX exF exB 1 [[1; 0]] (exC [[1; 0]]) (va_ex_pre a Na) exB_ok eq_refl eq_refl ltac:(repeat constructor) (va_span a Na) va_exLS). rewrite exR. reflexivity.
Qed.
Lemma va_exS : forall k, (k < length exS)%nat -> vget exS k <> 0.
Proof. intros k Hk. two k; unfold vget, exS; cbn; lra. Qed.
Lemma va_exJ : va_jac 1 2 [[1; 0]] exX exF = Some [[0; 0; 0; 0]; [1; -7; 7; -1]].
Proof.
  rewrite (arn_same_jacobian 1 2 [[1; 0]] exX exF exB exY exS exZ (exC [[1; 0]]) (va_ex_pre 1 ltac:(lra)) exB_ok eq_refl exSVD va_exS va_exLS).
  pose proof exJ as EJ. unfold gn_jac in EJ. rewrite EJ. reflexivity.
Qed.
(** the Jacobian there, the derivative when the line is turned, and the hypotheses of the comparison with a tensor basis *)
Example arn_jacobian_case : va_pre 1 2 [[1; 0]] exX exF /\ va_jac 1 2 [[1; 0]] exX exF = Some [[0; 0; 0; 0]; [1; -7; 7; -1]] /\
  derivable_pt_lim (fun t => match va_residual 1 (line [[1; 0]] [[0; 1]] t) exX exF with Some r => vget r 1 | None => 0 end) 0 (-7) /\
  basis_ok exB 1 /\ svd_mat (length exX) (length (indices exB)) (vp_V exB [[1; 0]] exX) exY exS exZ /\ (forall k, (k < length exS)%nat -> vget exS k <> 0) /\ ls_opt (length (indices exB)) (vp_V exB [[1; 0]] exX) exF (exC [[1; 0]]).
Proof.
  split; [apply va_ex_pre; lra|]. split; [apply va_exJ|]. split; [|split; [apply exB_ok|]; split; [apply exSVD|]; split; [apply va_exS|apply va_exLS]].
  destruct (arn_jacobian 1 2 [[1; 0]] exX exF (va_ex_pre 1 ltac:(lra))) as (J & E & _ & D). rewrite va_exJ in E. injection E as <-.
  specialize (D [[0; 1]] 1%nat eq_refl ltac:(repeat constructor) ltac:(cbn; lia)). replace (-7) with (vget (lincomb (length exX) [[0; 0; 0; 0]; [1; -7; 7; -1]] (flat 2 [[0; 1]])) 1); [exact D|]. unfold flat, lincomb. cbn. unfold vget. cbn. lra.
Qed.
(** a direction within the subspace *)
Example arn_kernel_case : va_pre 1 2 [[1; 0]] exX exF /\ within 2 [[1; 0]] [[5; 0]] /\ ~ within 2 [[1; 0]] [[0; 1]].
Proof.
  split; [apply va_ex_pre; lra|]. split.
  - split; auto. intros d [<-|[]]. exists [5]. split; auto. unfold lincomb. cbn. repeat (apply f_equal2; [lra|]). reflexivity.
  - intros [_ W]. destruct (W [0; 1] ltac:(cbn; auto)) as (e & Le & E). destruct e as [|e [|]]; try discriminate Le. revert E. unfold lincomb. cbn. intro E. injection E. lra.
Qed.
Lemma va_not2 : ~ unisolvent 2 1 (map (mv [[1; 0]]) exX).
Proof.
  intro U. rewrite va_Y in U. assert (Z := U (fun k => match k with 0%nat => 1 | 2%nat => -1 | _ => 0 end)). assert (A : 1 = 0); [|lra].
  apply (Z ltac:(intros x [<-|[<-|[<-|[<-|[]]]]]; rewrite va_poly2; ring) 0%nat). rewrite va_idx2. cbn. lia.
Qed.
Lemma va_yes2 : unisolvent 2 1 (map (mv [[1; 1/2]]) exX).
Proof.
  intros c H k Hk. rewrite va_idx2 in Hk. cbn in Hk. rewrite va_Y in H. assert (H0 := H [- 1 + 1/2] ltac:(cbn; auto)). assert (H1 := H [1 + 1/2] ltac:(cbn; auto)). assert (H2 := H [1 - 1/2] ltac:(cbn; auto)). rewrite va_poly2 in H0, H1, H2.
  destruct k as [|[|[|k]]]; [lra|lra|lra|lia].
Qed.
(** the check of the number of samples (polyridge.py 326-335) does not prevent the division by zero: four corners of the square, a
    quadratic along the first coordinate, where other directions are fine *)
Theorem arn_enough_refuted : exists m us us' X f, (1 <= length us)%nat /\ NoDup X /\ length f = length X /\ pr_enough m (length us) 2 (length X) = true /\ va_pre 2 m us' X f /\
  exists Q Rs, arnoldi (map (mv us) X) (index_set 2 (length us)) = Some (Q, Rs) /\ ~ no_breakdown Rs.
Proof.
  exists 2%nat, [[1; 0]], [[1; 1/2]], exX, exF. split; [cbn; lia|]. split.
  - assert (N : forall a b c d : R, a <> c \/ b <> d -> [a; b] <> [c; d]) by (intros a b c d [H|H] E; injection E; intros; auto). repeat constructor; cbn; intro H; repeat (destruct H as [H|H]; [revert H; apply N; lra|]); exact H.
  - split; [reflexivity|]. split; [vm_compute; reflexivity|]. split.
    + split; [cbn; lia|]. split; [discriminate|]. split; [repeat constructor|]. split; [repeat constructor|]. split; [reflexivity|apply va_yes2].
    + apply (arn_breakdown 2 2 [[1; 0]] exX exF); [cbn; lia|discriminate|repeat constructor|reflexivity|apply va_not2].
Qed.
