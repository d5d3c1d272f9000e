(** fit_fixed_subspace: the best fit on the span of the given matrix, whatever its columns are. *)
Require Import Reals Lra Lia List Bool Arith ZArith.
From Verif Require Import RVec Num Sums DomModel DomMoreModel SweepProofs HullProofs HullIneqProofs Deriv ArnoldiMoreProofs BasisModel IndexProofs PolyProofs MatLib SpecProofs GrassLib LipModel LipFitProofs PartialProofs SubModel ActiveProofs RidgeModel RidgeProofs TrajProofs PolySpan VarproLib VarproProofs VarproCases GnStep RidgeFitProofs RidgeAffine RidgeFinish FinishCases OptModel OptProofs SeqProofs SolveFit RFitModel RFitProofs RFitMore RFitEx FixModel.
Import ListNotations.
Local Open Scope R_scope.

(** contract of _fit_coef and of the SVD for all matrices with the span of U: the basis has the requested degree and the coefficients are optimal *)
Definition fixed_ok (fitc : list vec -> tbasis * vec) (svd1 : list vec -> list vec) (m n d : nat) (p : fnorm) (bd : fbound) (X : mat) (f : vec) (us : list vec) : Prop :=
  (forall vs, length vs = n -> Forall (fun u => length u = m) vs -> same_span m us vs -> basis_ok (fst (fitc vs)) n /\ tb_deg (fst (fitc vs)) = d /\
     coef_returns p bd (length (indices (fst (fitc vs)))) (vp_V (fst (fitc vs)) vs X) f (snd (fitc vs))) /\
  (forall G, length G = length X -> Forall (fun g => length g = n) G -> onb n (svd1 G)).

Theorem fixed_returns : forall fitc svd1 m n rot X us, (exists r, fit_fixed fitc svd1 m n rot X us = Some r) <-> length us = n /\ Forall (fun u => length u = m) us.
Proof.
  intros fitc svd1 m n rot X us. unfold fit_fixed. split.
  - intros [r H]. destruct (forallb _ us) eqn:F; [|discriminate]. destruct (Nat.eqb_spec (length us) n); [|discriminate]. split; auto. apply Forall_forall. intros u I. rewrite forallb_forall in F. apply Nat.eqb_eq. auto.
  - intros [L F]. assert (FB : forallb (fun u => Nat.eqb (length u) m) us = true) by (apply forallb_forall; intros u I; rewrite Forall_forall in F; apply Nat.eqb_eq; auto). rewrite FB. destruct (Nat.eqb_spec (length us) n); [eexists; reflexivity|lia].
Qed.

Lemma fixed_span : forall fitc svd1 m n d p bd rot X f us vs B c, fixed_ok fitc svd1 m n d p bd X f us -> fit_fixed fitc svd1 m n rot X us = Some (vs, (B, c)) ->
  (rot = false \/ forall u, In u vs -> u <> vzero m) ->
  length us = n /\ Forall (fun u => length u = m) us /\ length vs = n /\ Forall (fun u => length u = m) vs /\ same_span m us vs /\ (orthonormal us -> orthonormal vs) /\ (rot = false -> vs = us) /\ (B, c) = fitc vs.
Proof.
  intros fitc svd1 m n d p bd rot X f us vs B c [HF H1] H NZ. destruct (proj1 (fixed_returns fitc svd1 m n rot X us) (ex_intro _ _ H)) as [Lu FU].
  assert (E : finish fitc svd1 m rot X us = (vs, (B, c))). { unfold fit_fixed in H. destruct (_ && _)%bool; [|discriminate]. congruence. }
  split; auto. split; auto. destruct rot.
  2: { unfold finish in E. cbv zeta in E. rewrite andb_false_r in E. injection E as <- E. split; auto. split; auto. split; [intro; reflexivity|]. split; auto. }
  destruct NZ as [NZ|NZ]; [discriminate|]. destruct (HF us Lu FU ltac:(intro; reflexivity)) as [[_ [_ [Dn _]]] _].
  set (Y := map (mv us) X) in *. set (us1 := if Nat.ltb 1 (length us) && true then map (lincomb m us) (svd1 (map (poly_grad (fst (fitc us)) (snd (fitc us))) Y)) else us).
  assert (OB : onb (length us) (svd1 (map (poly_grad (fst (fitc us)) (snd (fitc us))) Y))).
  { rewrite Lu. apply H1; [unfold Y; rewrite !map_length; auto|]. apply Forall_forall. intros g I. apply in_map_iff in I. destruct I as [y [<- _]]. rewrite poly_grad_len. auto. }
  assert (L1 : length us1 = n /\ Forall (fun u => length u = m) us1 /\ (orthonormal us -> orthonormal us1) /\ same_span m us us1).
  { unfold us1. destruct (Nat.ltb 1 (length us)); cbn [andb]; [|repeat split; auto]. split; [rewrite map_length; destruct OB as [-> _]; auto|]. split; [apply rot_dims; auto|]. split; [intro; apply rot_orth; auto|apply rot_span; auto]. }
  destruct L1 as [L1 [F1 [O1 S1]]]. set (s := map (fun k => sgn (mean (col (map (poly_grad (fst (fitc us1)) (snd (fitc us1))) Y) k))) (seq 0 (length us))).
  assert (Ls : length s = length us1) by (unfold s; rewrite map_length, seq_length; congruence).
  assert (EF : finish fitc svd1 m true X us = (scale_cols s us1, fitc (scale_cols s us1))) by reflexivity. rewrite EF in E. injection E as <- E.
  assert (PM : pm1 s). { apply Forall_forall. intros a I. apply (In_nth _ _ 0) in I. destruct I as [k [Hk <-]]. change (nth k s 0) with (vget s k). assert (Hn : (k < length us)%nat) by lia. unfold s. rewrite vget_map_seq by auto. apply sgn_pm. intro Z.
    apply (NZ (nth k (scale_cols s us1) [])); [apply nth_In; rewrite scale_cols_len; lia|]. rewrite scale_cols_nth by lia. assert (SZ : vget s k = 0) by (unfold s; rewrite vget_map_seq by auto; rewrite Z; apply sgn_0). rewrite SZ.
    assert (LK : length (nth k us1 []) = m) by (rewrite Forall_forall in F1; apply F1, nth_In; lia). apply vec_ext; [rewrite vscale_length; unfold vzero; rewrite repeat_length; auto|]. intros i Hi. rewrite vscale_get, vzero_get. ring. }
  split; [rewrite scale_cols_len; lia|]. split; [apply Forall_forall; intros u I; apply (In_nth _ _ []) in I; destruct I as [k [Hk <-]]; rewrite scale_cols_len in Hk by lia; rewrite scale_cols_nth by lia; rewrite vscale_length; rewrite Forall_forall in F1; apply F1, nth_In; lia|].
  split; [intro x; rewrite (S1 x); apply flip_span; auto; lia|]. split; [|split; [discriminate|auto]]. intro OU. apply (scale_cols_orth m s us1 PM ltac:(lia) F1 (O1 OU)).
Qed.
(** the stored matrix has the span of U, the stored function is the best on that span, on the requested side of the data *)
Theorem fixed_correct : forall fitc svd1 m n d p bd rot X f us vs B c, fixed_ok fitc svd1 m n d p bd X f us -> Forall (fun x => length x = m) X -> length f = length X -> fit_fixed fitc svd1 m n rot X us = Some (vs, (B, c)) ->
  (rot = false \/ forall u, In u vs -> u <> vzero m) ->
  length vs = n /\ same_span m us vs /\ (orthonormal us -> orthonormal vs) /\ (rot = false -> vs = us) /\ basis_ok B n /\ tb_deg B = d /\ length c = length (indices B) /\ on_side bd X f (ridge_eval B c vs) /\
  forall B' n' us' c', basis_ok B' n' -> (tb_deg B' <= d)%nat -> length us' = n' -> (forall u, In u us' -> spans m us u) ->
    length c' = length (indices B') -> on_side bd X f (ridge_eval B' c' us') -> misfit p X f (ridge_eval B c vs) <= misfit p X f (ridge_eval B' c' us').
Proof.
  intros fitc svd1 m n d p bd rot X f us vs B c OK FX Lf H NZ. destruct (fixed_span _ _ _ _ _ _ _ _ _ _ _ _ _ _ OK H NZ) as (Lu & FU & Lv & FV & SP & O & RF & EB).
  destruct OK as [HF _]. destruct (HF vs Lv FV SP) as (BO & DG & CR). rewrite <- EB in BO, DG, CR. cbn [fst snd] in BO, DG, CR. destruct (coef_side p bd B vs X f c Lf CR) as [SD LC].
  repeat (split; [assumption|]). intros B' n' us' c' BO' DG' Lu' IN Lc' SD'. apply (coef_beats p bd B B' m n n' vs us' X f c c'); auto; [lia|]. intros u I. apply SP. apply IN. exact I.
Qed.
(** the error depends on the span only *)
Theorem fixed_span_only : forall fitc svd1 m n d p bd rot rot' X f us us' vs B c vs' B' c', fixed_ok fitc svd1 m n d p bd X f us -> same_span m us us' -> Forall (fun x => length x = m) X -> length f = length X ->
  fit_fixed fitc svd1 m n rot X us = Some (vs, (B, c)) -> fit_fixed fitc svd1 m n rot' X us' = Some (vs', (B', c')) -> (rot = false \/ forall u, In u vs -> u <> vzero m) -> (rot' = false \/ forall u, In u vs' -> u <> vzero m) ->
  misfit p X f (ridge_eval B c vs) = misfit p X f (ridge_eval B' c' vs').
Proof.
  intros fitc svd1 m n d p bd rot rot' X f us us' vs B c vs' B' c' OK SS FX Lf H H' NZ NZ'.
  assert (OK' : fixed_ok fitc svd1 m n d p bd X f us') by (destruct OK as [HF HS]; split; auto; intros ws L F S; apply HF; auto; intro x; rewrite (SS x); apply S).
  destruct (fixed_span _ _ _ _ _ _ _ _ _ _ _ _ _ _ OK H NZ) as (_ & _ & Lv & FV & SP & _ & _ & _). destruct (fixed_span _ _ _ _ _ _ _ _ _ _ _ _ _ _ OK' H' NZ') as (_ & _ & Lv' & FV' & SP' & _ & _ & _).
  destruct (fixed_correct _ _ _ _ _ _ _ _ _ _ _ _ _ _ OK FX Lf H NZ) as (_ & _ & _ & _ & BO & DG & LC & SD & BEST). destruct (fixed_correct _ _ _ _ _ _ _ _ _ _ _ _ _ _ OK' FX Lf H' NZ') as (_ & _ & _ & _ & BO' & DG' & LC' & SD' & BEST').
  assert (IN : forall (ws : list vec), length ws = n -> Forall (fun u => length u = m) ws -> forall u, In u ws -> spans m ws u) by (intros ws L F; apply span_members; auto; intro; reflexivity).
  apply Rle_antisym; [apply (BEST B' n vs' c'); auto; [lia|]|apply (BEST' B n vs c); auto; [lia|]]; intros u I.
  - apply SS, SP'. apply IN; auto.
  - apply SS, SP. apply IN; auto.
Qed.

(* ---------- cases ---------- *)
(** the data x_1 on a line of directions (a, 0): the slope of the profile is 1/a *)
Definition lf (us : list vec) : tbasis * vec := (gB, [0; / vget (nth 0 us []) 0; 0]).
Definition e2U : list vec := [[2; 0]].
Lemma e2_multiple : forall vs, length vs = 1%nat -> Forall (fun u => length u = 2%nat) vs -> same_span 2 e2U vs -> exists a, a <> 0 /\ vs = [[a; 0]].
Proof.
  intros vs L F S. destruct vs as [|u [|]]; try discriminate L. inversion F as [|? ? Lu _]; subst. destruct u as [|a [|b [|]]]; try discriminate Lu.
  assert (Q : spans 2 [[a; b]] [2; 0]). { apply S. exists [1]. split; auto. unfold lincomb, e2U, vadd, vscale. cbn. repeat (apply f_equal2; [ring|]). reflexivity. }
  destruct Q as [c [Lc Q]]. destruct c as [|k [|]]; try discriminate Lc. unfold lincomb, vadd, vscale in Q. cbn in Q. injection Q as Q1 Q2. assert (K : k <> 0) by (intro; subst; lra). assert (b = 0) by (assert (T : k * b = 0) by lra; apply Rmult_integral in T; tauto). subst b. exists a. split; auto. intro; subst; lra.
Qed.
Lemma lf_eval : forall a x, a <> 0 -> length x = 2%nat -> ridge_eval gB [0; / a; 0] [[a; 0]] x = vget x 0.
Proof.
  intros a x A L. destruct x as [|p [|q [|]]]; try discriminate L. unfold ridge_eval, poly_eval, mv. cbn [map]. rewrite !dot_cons, !dot_nil_l, gV, !dot_cons, !dot_nil_l. unfold vget. cbn [nth]. field. exact A.
Qed.
Lemma lf_ok : forall X rows, Forall (fun x => length x = 2%nat) X -> (forall G, rows G = [[1]]) -> fixed_ok lf rows 2 1 2 Ninf NoBound X (map (fun x => vget x 0) X) e2U.
Proof.
  intros X rows FX HR. split.
  - intros vs L F S. destruct (e2_multiple vs L F S) as [a [A ->]]. split; [apply gB_ok|]. split; [reflexivity|]. unfold lf. cbn [fst snd nth]. change (vget [a; 0] 0) with a. split; [reflexivity|]. intros y _.
    assert (Z : misfit Ninf X (map (fun x => vget x 0) X) (ridge_eval gB [0; / a; 0] [[a; 0]]) = 0).
    { replace (map (fun x => vget x 0) X) with (map (ridge_eval gB [0; / a; 0] [[a; 0]]) X) by (apply map_ext_in; intros x I; rewrite Forall_forall in FX; apply lf_eval; auto). apply misfit_zero. }
    unfold misfit in Z. rewrite <- pr_residual_map in Z. unfold fit_residual. unfold pr_residual in Z. rewrite Z.
    replace (mv (vp_V gB [[a; 0]] X) y) with (map (ridge_eval gB y [[a; 0]]) X) by (unfold vp_V, mv, ridge_eval, poly_eval; rewrite map_map; apply map_ext; intro; reflexivity). apply (misfit_nonneg Ninf X (map (fun x => vget x 0) X) (ridge_eval gB y [[a; 0]])).
  - intros G LG FG. rewrite HR. split; auto. split; [repeat constructor|]. intros i j Hi Hj. destruct i; [|cbn in Hi; lia]. destruct j; [|cbn in Hj; lia]. cbn. rewrite !dot_cons, !dot_nil_l. lra.
Qed.
Lemma lf_fixed : forall rot X, X <> [] -> fit_fixed lf (fun _ => [[1]]) 2 1 rot X e2U = Some (e2U, (gB, [0; / 2; 0])).
Proof.
  intros rot X NE. unfold fit_fixed. change (forallb (fun u => Nat.eqb (length u) 2) e2U && Nat.eqb (length e2U) 1)%bool with true. cbv iota. f_equal. unfold finish. cbv zeta. change (Nat.ltb 1 (length e2U)) with false. cbn [andb]. destruct rot; [|reflexivity].
  change (lf e2U) with (gB, [0; / 2; 0]). cbn [fst snd]. change (seq 0 (length e2U)) with [0%nat]. cbn [map].
  assert (M : mean (col (map (poly_grad gB [0; / 2; 0]) (map (mv e2U) X)) 0) = / 2).
  { unfold mean, col. rewrite !map_map, !map_length. set (g := fun x : vec => vget (poly_grad gB [0; / 2; 0] (mv e2U x)) 0). assert (E : map g X = repeat (/ 2) (length X)).
    { clear NE. induction X as [|x X IH]; [reflexivity|]. cbn [map repeat length]. rewrite IH. f_equal. unfold g, mv, e2U. cbn [map]. rewrite lin_grad1. reflexivity. }
    fold g. rewrite E. assert (V : forall k, vsum (repeat (/ 2) k) = INR k * / 2) by (induction k; [cbn; unfold vsum; cbn; ring|cbn [repeat]; rewrite vsum_cons, IHk, S_INR; ring]). rewrite V. field. apply not_0_INR. destruct X; [congruence|discriminate]. }
  rewrite M, sgn_pos by lra. replace (scale_cols [1] e2U) with e2U by (unfold scale_cols, e2U, vscale; cbn; repeat (apply f_equal2; [repeat (apply f_equal2; [ring|]); reflexivity|]); reflexivity). reflexivity.
Qed.
(** the columns of U stay as long as they were: a matrix that is not orthonormal is stored as it is, with and without the rotation *)
Theorem fixed_orthonormal_refuted : exists fitc svd1 X f us, (forall rot, exists B c, fixed_ok fitc svd1 2 1 2 Ninf NoBound X f us /\ independent 2 us /\ pr_enough 2 1 2 (length X) = true /\ fit_fixed fitc svd1 2 1 rot X us = Some (us, (B, c))) /\ ~ orthonormal us.
Proof.
  exists lf, (fun _ => [[1]]), zX, (map (fun x => vget x 0) zX), e2U. split.
  - intro rot. exists gB, [0; / 2; 0]. split; [apply lf_ok; [apply zX_dims|auto]|]. split; [|split; [reflexivity|apply lf_fixed; discriminate]].
    intros c Lc H. destruct c as [|k [|]]; try discriminate Lc. unfold lincomb, e2U, vadd, vscale in H. cbn in H. injection H as H _. cbn. f_equal. lra.
  - intro O. specialize (O 0%nat 0%nat ltac:(cbn; lia) ltac:(cbn; lia)). cbn in O. rewrite !dot_cons, !dot_nil_l in O. lra.
Qed.
(** the number of samples is not checked: one sample is accepted and the stored function is one of several that fit it *)
Theorem fixed_determined_refuted : exists fitc svd1 X f us B c B' c', fixed_ok fitc svd1 2 1 2 Ninf NoBound X f us /\ pr_enough 2 1 2 (length X) = false /\ (forall rot, fit_fixed fitc svd1 2 1 rot X us = Some (us, (B, c))) /\
  basis_ok B' 1 /\ tb_deg B' = 2%nat /\ length c' = length (indices B') /\ misfit Ninf X f (ridge_eval B' c' us) <= misfit Ninf X f (ridge_eval B c us) /\ exists x, length x = 2%nat /\ ridge_eval B' c' us x <> ridge_eval B c us x.
Proof.
  exists lf, (fun _ => [[1]]), [[1; 0]], [1], e2U, gB, [0; / 2; 0], gB, [1; 0; 0]. split; [apply (lf_ok [[1; 0]]); [repeat constructor|auto]|]. split; [reflexivity|]. split; [intro rot; apply lf_fixed; discriminate|]. split; [apply gB_ok|]. split; auto. split; auto.
  assert (E : forall x, length x = 2%nat -> ridge_eval gB [0; / 2; 0] e2U x = vget x 0) by (intros x L; apply (lf_eval 2); auto; lra). assert (E' : forall x, length x = 2%nat -> ridge_eval gB [1; 0; 0] e2U x = 1).
  { intros x L. unfold ridge_eval, poly_eval, mv, e2U. cbn [map]. rewrite gV, !dot_cons, !dot_nil_l. ring. }
  split.
  - unfold misfit. cbn [map]. rewrite E, E' by auto. unfold vget. cbn [nth]. lra.
  - exists [0; 0]. split; auto. rewrite E, E' by auto. unfold vget. cbn. lra.
Qed.
Example fixed_case : fixed_ok lf (fun _ => [[1]]) 2 1 2 Ninf NoBound zX f1 e2U /\ Forall (fun x => length x = 2%nat) zX /\ length f1 = length zX /\ fit_fixed lf (fun _ => [[1]]) 2 1 true zX e2U = Some (e2U, (gB, [0; / 2; 0])) /\
  (forall u, In u e2U -> u <> vzero 2) /\ misfit Ninf zX f1 (ridge_eval gB [0; / 2; 0] e2U) = 0.
Proof.
  assert (F : f1 = map (fun x => vget x 0) zX) by reflexivity. split; [rewrite F; apply lf_ok; [apply zX_dims|auto]|]. split; [apply zX_dims|]. split; auto. split; [apply lf_fixed; discriminate|]. split; [intros u [<-|[]] H; injection H; lra|].
  replace f1 with (map (ridge_eval gB [0; / 2; 0] e2U) zX); [apply misfit_zero|]. rewrite F. apply map_ext_in. intros x I. apply (lf_eval 2); [lra|]. pose proof zX_dims as D. rewrite Forall_forall in D. auto.
Qed.
(** the line through (2, 0) given by (1, 0): another matrix, the same span and the same error *)
Example fixed_span_case : same_span 2 e2U gU /\ e2U <> gU /\ fit_fixed lf (fun _ => [[1]]) 2 1 false zX gU = Some (gU, (gB, [0; / 1; 0])) /\ fixed_ok lf (fun _ => [[1]]) 2 1 2 Ninf NoBound zX f1 e2U.
Proof.
  split; [|split; [intro H; injection H; lra|split; [reflexivity|apply fixed_case]]]. intro x. split; intros [c [Lc ->]]; destruct c as [|k [|]]; try discriminate Lc.
  - exists [2 * k]. split; auto. unfold lincomb, e2U, gU, vadd, vscale. cbn. repeat (apply f_equal2; [ring|]). reflexivity.
  - exists [k / 2]. split; auto. unfold lincomb, e2U, gU, vadd, vscale. cbn. repeat (apply f_equal2; [field|]). reflexivity.
Qed.

(* ---------- the sign of a vanishing slope ---------- *)
Lemma fixed_exact : forall fitc svd1 p bd us, fixed_ok fitc svd1 2 1 2 p bd zX zf gU -> length us = 1%nat -> Forall (fun u => length u = 2%nat) us -> same_span 2 gU us -> zf = map (ridge_eval (fst (fitc us)) (snd (fitc us)) us) zX.
Proof.
  intros fitc svd1 p bd us [HF _] L F SS. destruct (HF us L F SS) as [BO [BD CR]]. apply (misfit_zero_inv p); [reflexivity|].
  eapply Rle_trans; [apply (coef_beats p bd _ gB 2 1 1 us gU zX zf _ [0; 0; 1] BO gB_ok); auto|].
  - rewrite BD. cbn. lia.
  - apply span_members; auto. apply gU_good.
  - apply zX_dims.
  - rewrite zf_ridge. apply side_exact.
  - rewrite zf_ridge, misfit_zero. lra.
Qed.
(** the data x_1^2 on a symmetric design: the given direction fits them exactly, the rotation replaces it by zero and the stored function is a constant *)
Theorem fixed_erases : forall fitc svd1 p bd vs B c, fixed_ok fitc svd1 2 1 2 p bd zX zf gU -> fit_fixed fitc svd1 2 1 true zX gU = Some (vs, (B, c)) ->
  vs = [[0; 0]] /\ (forall x y, length x = 2%nat -> length y = 2%nat -> ridge_eval B c vs x = ridge_eval B c vs y) /\ 0 < misfit p zX zf (ridge_eval B c vs) /\
  exists B' c', fit_fixed fitc svd1 2 1 false zX gU = Some (gU, (B', c')) /\ misfit p zX zf (ridge_eval B' c' gU) = 0.
Proof.
  intros fitc svd1 p bd vs B c OK H.
  assert (FC : fit_contract 2 2 zX zf gU fitc).
  { intros us L F O SS. change (length gU) with 1%nat in *. pose proof OK as [HF _]. destruct (HF us L F SS) as [BO [BD CR]]. split; auto. split; auto. destruct (coef_side p bd _ us zX zf _ eq_refl CR) as [_ Lc]. apply ls_exact; auto.
    rewrite (fixed_exact fitc svd1 p bd us OK L F SS). unfold mv at 1, vp_V. rewrite map_map. apply map_ext. intro x. reflexivity. }
  assert (VS : vs = [[0; 0]]).
  { assert (E : finish fitc svd1 2 true zX gU = (vs, (B, c))) by (unfold fit_fixed in H; destruct (_ && _)%bool; [congruence|discriminate]). apply (f_equal fst) in E. cbn [fst] in E. rewrite <- E.
    pose proof (g_slopes fitc zX FC zX_dims z_inj) as S. unfold finish. change (Nat.ltb 1 (length gU) && true)%bool with false. cbv iota zeta. cbn [fst]. change (seq 0 (length gU)) with [0%nat]. cbn [map]. rewrite slopes_col, S.
    assert (Z : mean (map (fun x => 2 * vget x 0) zX) = 0) by (unfold mean, zX, vsum, vget; cbn; lra). rewrite Z, sgn_0. unfold scale_cols, gU, vscale. cbn. repeat (apply f_equal2; [repeat (apply f_equal2; [ring|]); reflexivity|]). reflexivity. }
  split; auto. rewrite VS. split; [intros; rewrite !zero_dir_const by auto; auto|]. split.
  - pose proof (misfit_nonneg p zX zf (ridge_eval B c [[0; 0]])) as N. destruct (Rle_lt_or_eq_dec _ _ N) as [|Z]; [auto|]. exfalso. assert (Q : zf = map (ridge_eval B c [[0; 0]]) zX) by (apply (misfit_zero_inv p); [reflexivity|lra]).
    unfold zf, zX, gq, vget in Q. cbn [map nth] in Q. rewrite !zero_dir_const in Q by auto. injection Q as Q1 Q2 Q3 Q4. lra.
  - exists (fst (fitc gU)), (snd (fitc gU)). split; [rewrite <- surjective_pairing; reflexivity|]. rewrite (fixed_exact fitc svd1 p bd gU OK eq_refl ltac:(apply gU_good) ltac:(intro; reflexivity)). apply misfit_zero.
Qed.
Definition sqf (us : list vec) : tbasis * vec := (gB, [0; 0; / vget (nth 0 us []) 0 * / vget (nth 0 us []) 0]).
Example fixed_erases_case : fixed_ok sqf (fun _ => [[1]]) 2 1 2 Ninf NoBound zX zf gU /\ exists vs B c, fit_fixed sqf (fun _ => [[1]]) 2 1 true zX gU = Some (vs, (B, c)).
Proof.
  split; [|unfold fit_fixed, finish; cbv zeta; cbn [forallb gU length Nat.eqb andb]; do 3 eexists; reflexivity]. split.
  - intros vs L F S. assert (S2 : same_span 2 e2U vs) by (intro x; rewrite <- (S x); apply fixed_span_case). destruct (e2_multiple vs L F S2) as [a [A ->]]. split; [apply gB_ok|]. split; [reflexivity|]. unfold sqf. cbn [fst snd nth]. change (vget [a; 0] 0) with a. split; [reflexivity|]. intros y _.
    assert (Q : zf = map (ridge_eval gB [0; 0; / a * / a] [[a; 0]]) zX).
    { unfold zf. apply map_ext_in. intros x I. pose proof zX_dims as D. rewrite Forall_forall in D. specialize (D x I). destruct x as [|u [|v [|]]]; try discriminate D. unfold ridge_eval, poly_eval, mv, gq. cbn [map]. rewrite !dot_cons, !dot_nil_l, gV, !dot_cons, !dot_nil_l. unfold vget. cbn [nth]. field. exact A. }
    assert (Z : misfit Ninf zX zf (ridge_eval gB [0; 0; / a * / a] [[a; 0]]) = 0) by (rewrite Q; apply misfit_zero).
    unfold misfit in Z. rewrite <- pr_residual_map in Z. unfold fit_residual. unfold pr_residual in Z. rewrite Z.
    replace (mv (vp_V gB [[a; 0]] zX) y) with (map (ridge_eval gB y [[a; 0]]) zX) by (unfold vp_V, mv, ridge_eval, poly_eval; rewrite map_map; apply map_ext; intro; reflexivity). apply (misfit_nonneg Ninf zX zf (ridge_eval gB y [[a; 0]])).
  - intros G LG FG. split; auto. split; [repeat constructor|]. intros i j Hi Hj. destruct i; [|cbn in Hi; lia]. destruct j; [|cbn in Hj; lia]. cbn. rewrite !dot_cons, !dot_nil_l. lra.
Qed.
(** with the rotation, without any assumption on the slopes: every stored column lies in the span of U, and a column of the rotated matrix is erased exactly if its mean slope is zero *)
Theorem fixed_columns : forall fitc svd1 m n d p bd X f us vs B c, fixed_ok fitc svd1 m n d p bd X f us -> fit_fixed fitc svd1 m n true X us = Some (vs, (B, c)) ->
  length vs = n /\ (forall v, In v vs -> spans m us v) /\ exists ws, length ws = n /\ same_span m us ws /\ ((n <= 1)%nat -> ws = us) /\
  forall k, (k < n)%nat -> nth k ws [] <> vzero m -> let slope := profile_slopes (fst (fitc ws)) (snd (fitc ws)) (map (mv us) X) k in
    (nth k vs [] = vzero m <-> slope = 0) /\ (0 < slope -> nth k vs [] = nth k ws []) /\ (slope < 0 -> nth k vs [] = vscale (-1) (nth k ws [])).
Proof.
  intros fitc svd1 m n d p bd X f us vs B c [HF H1] H. destruct (proj1 (fixed_returns fitc svd1 m n true X us) (ex_intro _ _ H)) as [Lu FU].
  assert (E : finish fitc svd1 m true X us = (vs, (B, c))) by (unfold fit_fixed in H; destruct (_ && _)%bool; [congruence|discriminate]).
  destruct (HF us Lu FU ltac:(intro; reflexivity)) as [[_ [_ [Dn _]]] _].
  set (Y := map (mv us) X) in *. set (ws := if Nat.ltb 1 (length us) && true then map (lincomb m us) (svd1 (map (poly_grad (fst (fitc us)) (snd (fitc us))) Y)) else us).
  assert (OB : onb (length us) (svd1 (map (poly_grad (fst (fitc us)) (snd (fitc us))) Y))).
  { rewrite Lu. apply H1; [unfold Y; rewrite !map_length; auto|]. apply Forall_forall. intros g I. apply in_map_iff in I. destruct I as [y [<- _]]. rewrite poly_grad_len. auto. }
  assert (L1 : length ws = n /\ Forall (fun u => length u = m) ws /\ same_span m us ws /\ ((n <= 1)%nat -> ws = us)).
  { unfold ws. destruct (Nat.ltb_spec 1 (length us)) as [B1|B1]; cbn [andb]; [|repeat split; auto]. split; [rewrite map_length; destruct OB as [-> _]; auto|]. split; [apply rot_dims; auto|]. split; [apply rot_span; auto|lia]. }
  destruct L1 as [L1 [F1 [S1 N1]]]. set (s := map (fun k => sgn (mean (col (map (poly_grad (fst (fitc ws)) (snd (fitc ws))) Y) k))) (seq 0 (length us))).
  assert (Ls : length s = length ws) by (unfold s; rewrite map_length, seq_length; congruence).
  assert (EF : finish fitc svd1 m true X us = (scale_cols s ws, fitc (scale_cols s ws))) by reflexivity. rewrite EF in E. assert (EV : vs = scale_cols s ws) by congruence. clear E EF.
  assert (NK : forall k, (k < n)%nat -> nth k vs [] = vscale (sgn (profile_slopes (fst (fitc ws)) (snd (fitc ws)) Y k)) (nth k ws [])).
  { intros k Hk. rewrite EV, scale_cols_nth by lia. f_equal. unfold s. rewrite vget_map_seq by lia. rewrite slopes_col. reflexivity. }
  assert (Lv : length vs = n) by (rewrite EV, scale_cols_len; lia). split; auto. split.
  { intros v I. apply (In_nth _ _ []) in I. destruct I as [k [Hk <-]]. rewrite NK by lia. apply S1. destruct (spans_col m ws k F1 ltac:(lia)) as [e [Le Ee]]. rewrite Ee. exists (vscale (sgn (profile_slopes (fst (fitc ws)) (snd (fitc ws)) Y k)) e). split; [rewrite vscale_length; auto|].
    apply vec_ext; [rewrite vscale_length, !lincomb_length; auto|]. intros i Hi. rewrite vscale_length, lincomb_length in Hi by auto. rewrite vscale_get, !(MatLib.lincomb_get m) by (auto; rewrite vscale_length; auto). rewrite <- rsum_scal_l. apply rsum_ext. intros j Hj. rewrite vscale_get. ring. }
  exists ws. split; auto. split; auto. split; auto. intros k Hk NZ slope. rewrite NK by auto. fold slope. assert (LK : length (nth k ws []) = m) by (rewrite Forall_forall in F1; apply F1, nth_In; lia).
  assert (ONE : vscale 1 (nth k ws []) = nth k ws []) by (apply vec_ext; [apply vscale_length|]; intros i _; rewrite vscale_get; ring).
  split; [|split; intro P; [rewrite sgn_pos by auto; exact ONE|]].
  - split; intro Z.
    + destruct (Req_dec slope 0) as [|NE]; auto. exfalso. apply NZ. apply vec_ext; [rewrite LK; unfold vzero; rewrite repeat_length; auto|]. intros i Hi. rewrite vzero_get. apply (f_equal (fun v => vget v i)) in Z. rewrite vscale_get, vzero_get in Z. apply Rmult_integral in Z. destruct Z as [Z|Z]; auto. exfalso. destruct (sgn_pm slope NE); lra.
    + rewrite Z, sgn_0. apply vec_ext; [rewrite vscale_length; unfold vzero; rewrite repeat_length; auto|]. intros i Hi. rewrite vscale_get, vzero_get. ring.
  - f_equal. apply sgn_neg. exact P.
Qed.
