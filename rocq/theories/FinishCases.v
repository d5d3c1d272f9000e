(** Concrete cases of _finish: the signs are computed at stale coordinates after a rotation, and a vanishing mean slope
    erases the direction. *)
Require Import Reals Lra Lia List Bool Arith.
From Verif Require Import RVec Num Sums DomModel DomMoreModel SweepProofs HullProofs HullIneqProofs Deriv BasisModel IndexProofs PolyProofs MatLib SpecProofs GrassLib LipModel LipFitProofs PartialProofs SubModel ActiveProofs RidgeModel RidgeProofs TrajProofs PolySpan VarproLib VarproProofs VarproCases RidgeFitProofs RidgeFinish.
Import ListNotations.
Local Open Scope R_scope.

(** left singular vectors of the matrix with the columns G, by decreasing singular value *)
Definition left_sv (n : nat) (G Ur : list vec) : Prop :=
  onb n Ur /\ exists s, length s = n /\ (forall k, (k < n)%nat -> 0 <= vget s k) /\ (forall i j, (i <= j)%nat -> (j < n)%nat -> vget s j <= vget s i) /\
    forall k, (k < n)%nat -> lincomb n G (mv G (nth k Ur [])) = vscale (vget s k * vget s k) (nth k Ur []).

(* ---------- exact fits ---------- *)
Lemma ls_exact : forall N V f c, length c = N -> mv V c = f -> ls_opt N V f c.
Proof.
  intros N V f c L E. split; auto. intros c' _. rewrite E. replace (norm2 (vsub f f)) with 0; [apply norm2_nonneg|]. symmetry. unfold norm2, norm2sq. rewrite (dot_rs (length f)) by (apply vsub_length; auto). rewrite rsum_zero; [apply sqrt_0|]. intros i Hi. rewrite vsub_get by auto. ring.
Qed.
(** a profile equal to a quadratic has its gradient *)
Lemma quad_grad : forall B c al be, basis_ok B 2 -> length c = length (indices B) -> (forall a b, poly_eval B c [a; b] = al * (a * a) + be * (b * b)) ->
  forall a b, poly_grad B c [a; b] = [2 * al * a; 2 * be * b].
Proof.
  intros B c al be [FO [_ [Dn _]]] Lc E a b. assert (LG : length (poly_grad B c [a; b]) = 2%nat) by (rewrite poly_grad_len; auto).
  assert (D : forall p q, dot (poly_grad B c [a; b]) [p; q] = 2 * al * a * p + 2 * be * b * q).
  { intros p q. pose proof (poly_dir B c [a; b] [p; q] FO ltac:(cbn; lia) ltac:(cbn; lia) ltac:(lia) Lc) as D1. apply (uniqueness_limite _ _ _ _ D1).
    apply d_ext with (f := fun t => al * ((p * t + a) * (p * t + a)) + be * ((q * t + b) * (q * t + b))) (l := al * (p * (p * 0 + a) + (p * 0 + a) * p) + be * (q * (q * 0 + b) + (q * 0 + b) * q)).
    - intro t. unfold vadd, vscale. cbn. rewrite E. ring.
    - ring.
    - apply (d_plus (fun t => al * ((p * t + a) * (p * t + a))) (fun t => be * ((q * t + b) * (q * t + b)))); apply d_scal; apply (d_mult (fun t => _ * t + _) (fun t => _ * t + _)); apply d_lin. }
  destruct (poly_grad B c [a; b]) as [|g [|h [|]]]; try discriminate LG. pose proof (D 1 0) as D1. pose proof (D 0 1) as D2. rewrite !dot_cons, !dot_nil_l in D1, D2. repeat (apply f_equal2; [lra|]). reflexivity.
Qed.
Lemma quad_grad1 : forall B c al, basis_ok B 1 -> length c = length (indices B) -> (forall a, poly_eval B c [a] = al * (a * a)) -> forall a, poly_grad B c [a] = [2 * al * a].
Proof.
  intros B c al [FO [_ [Dn _]]] Lc E a. assert (LG : length (poly_grad B c [a]) = 1%nat) by (rewrite poly_grad_len; auto).
  assert (D : dot (poly_grad B c [a]) [1] = 2 * al * a).
  { pose proof (poly_dir B c [a] [1] FO ltac:(cbn; lia) ltac:(cbn; lia) ltac:(lia) Lc) as D1. apply (uniqueness_limite _ _ _ _ D1).
    apply d_ext with (f := fun t => al * ((1 * t + a) * (1 * t + a))) (l := al * (1 * (1 * 0 + a) + (1 * 0 + a) * 1)).
    - intro t. unfold vadd, vscale. cbn. rewrite E. ring.
    - ring.
    - apply d_scal; apply (d_mult (fun t => _ * t + _) (fun t => _ * t + _)); apply d_lin. }
  destruct (poly_grad B c [a]) as [|g [|]]; try discriminate LG. rewrite !dot_cons, !dot_nil_l in D. repeat (apply f_equal2; [lra|]). reflexivity.
Qed.

(* ---------- stale coordinates ---------- *)
Definition fB : tbasis := mkTB monomials 2 2 NoScale.
Definition fX : mat := [[-2; 0]; [-2; 1]; [-2; 2]; [-1; 0]; [-1; 1]; [-1; 2]; [0; 0]; [0; 1]; [0; 2]; [3; 3]].
Definition fq (x : vec) : R := vget x 0 * vget x 0 + 2 * (vget x 1 * vget x 1).
Definition fE : list vec := [[1; 0]; [0; 1]].
Lemma fB_ok : basis_ok fB 2.
Proof. split; [apply monomials_ok|]. split; [apply monomials_rec|]. split; auto. split; auto. intros k Hk. cbn. lra. Qed.
Lemma fV : forall a b, Vrow fB [a; b] = [1; a; b; a * a; a * b; b * b].
Proof. intros a b. unfold Vrow. change (indices fB) with [[0; 0]; [1; 0]; [0; 1]; [2; 0]; [1; 1]; [0; 2]]%nat. cbn. unfold scale. cbn. unfold vget. cbn. repeat (apply f_equal2; [ring|]). reflexivity. Qed.
Lemma fE_mv : forall a b, mv fE [a; b] = [a; b].
Proof. intros. unfold mv, fE. cbn [map]. rewrite !dot_cons, !dot_nil_l. repeat (apply f_equal2; [ring|]). reflexivity. Qed.
Lemma fE_onb : onb 2 fE.
Proof. split; auto. split; [repeat constructor|]. intros a b Ha Hb. two a; two b; cbn; rewrite !dot_cons, !dot_nil_l; lra. Qed.
Lemma two_list : forall x : vec, length x = 2%nat -> x = [vget x 0; vget x 1]. Proof. intros x L. destruct x as [|a [|b [|]]]; try discriminate L. reflexivity. Qed.
Lemma fV_inj : injective_V fB fE fX.
Proof.
  intros c c' L L' E. change (length (indices fB)) with 6%nat in L, L'. destruct c as [|c0 [|c1 [|c2 [|c3 [|c4 [|c5 [|]]]]]]]; try discriminate L. destruct c' as [|d0 [|d1 [|d2 [|d3 [|d4 [|d5 [|]]]]]]]; try discriminate L'.
  unfold vp_V, fX in E. cbn [map] in E. rewrite !fE_mv, !fV in E. unfold mv in E. cbn [map] in E. rewrite !dot_cons, !dot_nil_l in E. injection E as E1 E2 E3 E4 E5 E6 E7 E8 E9 E10. repeat (apply f_equal2; [lra|]). reflexivity.
Qed.
Lemma full_span : forall us, onb 2 us -> same_span 2 fE us.
Proof.
  intros us O x. assert (G : forall vs, onb 2 vs -> (spans 2 vs x <-> length x = 2%nat)). { intros vs [L [F OR]]. split; [intros [c [Lc ->]]; apply lincomb_length; auto|]. intro Lx. exists (mv vs x). split; [apply mv_length|]. symmetry. apply onb_expand; auto. split; auto. }
  rewrite (G fE fE_onb), (G us O). tauto.
Qed.
Lemma map_mv_q : forall B us c, (forall x, In x fX -> ridge_eval B c us x = fq x) -> mv (vp_V B us fX) c = map fq fX.
Proof. intros B us c H. unfold mv, vp_V. rewrite map_map. apply map_ext_in. exact H. Qed.
Lemma fE_fit : ls_opt (length (indices fB)) (vp_V fB fE fX) (map fq fX) [0; 0; 0; 1; 0; 2].
Proof.
  apply ls_exact; auto. apply map_mv_q. intros x I. assert (L : length x = 2%nat) by (revert x I; apply Forall_forall; repeat constructor). rewrite (two_list x L). unfold ridge_eval, poly_eval. rewrite fE_mv, fV, !dot_cons, !dot_nil_l. unfold fq, vget. cbn. ring.
Qed.
(** an exact fitter for every orthonormal basis *)
Definition fFit (us : list vec) : tbasis * vec :=
  let u := nth 0 us [] in let v := nth 1 us [] in
  (fB, [0; 0; 0; fq u; 2 * (vget u 0 * vget v 0 + 2 * (vget u 1 * vget v 1)); fq v]).
Lemma fFit_ok : fit_contract 2 2 fX (map fq fX) fE fFit.
Proof.
  intros us L F O _. change (length fE) with 2%nat in *. split; [apply fB_ok|]. split; auto. assert (OB : onb 2 us) by (split; auto). apply ls_exact; auto. apply map_mv_q. intros x I. assert (Lx : length x = 2%nat) by (revert x I; apply Forall_forall; repeat constructor).
  destruct us as [|u [|v [|]]]; try discriminate L. pose proof (onb_expand 2 [u; v] x OB Lx) as E. assert (Lu : length u = 2%nat) by (inversion F; auto). assert (Lv : length v = 2%nat) by (inversion F as [|? ? _ F']; inversion F'; auto).
  unfold ridge_eval, poly_eval. replace (mv [u; v] x) with [dot u x; dot v x] in * by reflexivity. rewrite <- E at 3. set (a := dot u x) in *. set (b := dot v x) in *. rewrite fV. cbn [fst snd fFit nth]. rewrite (two_list u Lu), (two_list v Lv). unfold lincomb, fq, vadd, vscale, vget. cbn. rewrite !dot_cons, !dot_nil_l. ring.
Qed.
Lemma fit_profile : forall fitc us, fit_contract 2 2 fX (map fq fX) fE fitc -> onb 2 us -> forall a b, poly_eval (fst (fitc us)) (snd (fitc us)) [a; b] = fq (lincomb 2 us [a; b]).
Proof.
  intros fitc us FC OB a b. pose proof OB as [L [F O]]. destruct (FC us L F O (full_span us OB)) as [B1 [D1 LS1]]. set (x := lincomb 2 us [a; b]). assert (Lx : length x = 2%nat) by (apply lincomb_length; auto).
  pose proof (ridge_fit_unique fB (fst (fitc us)) 2 2 2 fE us fX (map fq fX) [0; 0; 0; 1; 0; 2] (snd (fitc us)) fB_ok B1 D1 eq_refl L ltac:(repeat constructor) F (full_span us OB) ltac:(repeat constructor) eq_refl fV_inj fE_fit LS1 x Lx) as E.
  unfold ridge_eval in E. unfold x in E at 2. rewrite (mv_lincomb_onb 2) in E by auto. rewrite <- E. rewrite (two_list x Lx), fE_mv. unfold poly_eval. rewrite fV, !dot_cons, !dot_nil_l. unfold fq, vget. cbn. ring.
Qed.
Definition fS : list vec := [[0; 1]; [1; 0]].
Lemma fS_onb : onb 2 fS.
Proof. split; auto. split; [repeat constructor|]. intros a b Ha Hb. two a; two b; cbn; rewrite !dot_cons, !dot_nil_l; lra. Qed.
Lemma fRot : map (lincomb 2 fE) fS = fS.
Proof. unfold fS, fE, lincomb, vadd, vscale. cbn. repeat (apply f_equal2; [repeat (apply f_equal2; [lra|]); reflexivity|]). reflexivity. Qed.
Lemma fit_grads : forall fitc us al be, fit_contract 2 2 fX (map fq fX) fE fitc -> onb 2 us -> (forall a b, fq (lincomb 2 us [a; b]) = al * (a * a) + be * (b * b)) ->
  forall a b, poly_grad (fst (fitc us)) (snd (fitc us)) [a; b] = [2 * al * a; 2 * be * b].
Proof.
  intros fitc us al be FC OB Q. pose proof OB as [L [F O]]. destruct (FC us L F O (full_span us OB)) as [B1 [D1 [LS1 _]]]. apply quad_grad; auto. intros a b. rewrite fit_profile by auto. auto.
Qed.
Lemma fit_slopes : forall fitc us al be u v, fit_contract 2 2 fX (map fq fX) fE fitc -> onb 2 us -> (forall a b, fq (lincomb 2 us [a; b]) = al * (a * a) + be * (b * b)) ->
  profile_slopes (fst (fitc us)) (snd (fitc us)) (map (mv [u; v]) fX) 0 = mean (map (fun x => 2 * al * dot u x) fX) /\
  profile_slopes (fst (fitc us)) (snd (fitc us)) (map (mv [u; v]) fX) 1 = mean (map (fun x => 2 * be * dot v x) fX).
Proof.
  intros fitc us al be u v FC OB Q. pose proof (fit_grads fitc us al be FC OB Q) as G. unfold profile_slopes. rewrite !map_map. split; f_equal; apply map_ext; intro x; change (mv [u; v] x) with [dot u x; dot v x]; rewrite G; reflexivity.
Qed.
Lemma fq1 : forall a b, fq (lincomb 2 fE [a; b]) = 1 * (a * a) + 2 * (b * b). Proof. intros. unfold fq, fE, lincomb, vadd, vscale, vget. cbn. ring. Qed.
Lemma fq2 : forall a b, fq (lincomb 2 fS [a; b]) = 2 * (a * a) + 1 * (b * b). Proof. intros. unfold fq, fS, lincomb, vadd, vscale, vget. cbn. ring. Qed.
Lemma sgn_neg : forall x, x < 0 -> sgn x = -1. Proof. intros x H. unfold sgn, Rltb. repeat destruct Rlt_dec; lra. Qed.
Lemma sgn_pos : forall x, 0 < x -> sgn x = 1. Proof. intros x H. unfold sgn, Rltb. repeat destruct Rlt_dec; lra. Qed.
Ltac meanx := unfold mean, fX, vsum; cbn [map fold_right length]; rewrite !dot_cons, !dot_nil_l; cbn [INR].
Lemma f_pre : forall fitc, fit_contract 2 2 fX (map fq fX) fE fitc -> finish_pre fitc (fun _ => fS) 2 fX fE fS.
Proof.
  intros fitc FC. split; [apply fE_onb|]. split; [apply fE_onb|]. split; [intros _; exists fS; split; auto; split; [apply fS_onb|symmetry; apply fRot]|]. split; [cbn; lia|].
  destruct (fit_slopes fitc fS 2 1 [1; 0] [0; 1] FC fS_onb fq2) as [S0 S1]. intros k Hk. change (length fE) with 2%nat in Hk. two k; unfold fE; [rewrite S0|rewrite S1]; meanx; lra.
Qed.
(** the rotation reorders the two coordinates, the signs are taken with the old order: both slopes of the result are negative *)
Theorem finish_stale_refuted : exists d m X f us svd1, (exists fitc, fit_contract d m X f us fitc) /\ forall fitc, fit_contract d m X f us fitc ->
  finish_pre fitc svd1 m X us (map (lincomb m us) (svd1 [])) /\
  left_sv (length us) (map (poly_grad (fst (fitc us)) (snd (fitc us))) (map (mv us) X)) (svd1 (map (poly_grad (fst (fitc us)) (snd (fitc us))) (map (mv us) X))) /\
  let r := finish fitc svd1 m true X us in
  forall k, (k < length us)%nat -> profile_slopes (fst (snd r)) (snd (snd r)) (map (mv (fst r)) X) k < 0.
Proof.
  exists 2%nat, 2%nat, fX, (map fq fX), fE, (fun _ => fS). split; [exists fFit; apply fFit_ok|]. intros fitc FC. rewrite fRot. pose proof (f_pre fitc FC) as P. split; auto. split.
  - pose proof (fit_grads fitc fE 1 2 FC fE_onb fq1) as G. unfold fX. cbn [map]. rewrite !fE_mv, !G. split; [apply fS_onb|]. exists [4 * sqrt 24; 2 * sqrt 24]. assert (Q : sqrt 24 * sqrt 24 = 24) by (apply sqrt_sqrt; lra). assert (Q0 : 0 <= sqrt 24) by apply sqrt_pos. split; [reflexivity|]. change (length fE) with 2%nat.
    split; [intros k Hk; two k; unfold vget; cbn; lra|]. split; [intros i j Hij Hj; two j; two i; unfold vget; cbn; try lra; lia|].
    intros k Hk. two k; unfold fS, mv, lincomb, vget; cbn [nth map]; rewrite !dot_cons, !dot_nil_l; [replace (4 * sqrt 24 * (4 * sqrt 24)) with (16 * (sqrt 24 * sqrt 24)) by ring|replace (2 * sqrt 24 * (2 * sqrt 24)) with (4 * (sqrt 24 * sqrt 24)) by ring]; rewrite Q; unfold vadd, vscale; cbn; repeat (apply f_equal2; [lra|]); reflexivity.
  - intros r k Hk. destruct (finish_unfold _ _ _ _ _ _ P) as [s [PM [Ls [Gs [E _]]]]]. unfold r. rewrite E. cbn [fst snd]. change (length fE) with 2%nat in *. destruct (fit_slopes fitc fS 2 1 [1; 0] [0; 1] FC fS_onb fq2) as [S0 S1].
    assert (S : s = [-1; 1]). { destruct s as [|a [|b [|]]]; try discriminate Ls. pose proof (Gs 0%nat ltac:(lia)) as G0. pose proof (Gs 1%nat ltac:(lia)) as G1. unfold fE in G0, G1. rewrite S0 in G0. rewrite S1 in G1. change (vget [a; b] 0) with a in G0. change (vget [a; b] 1) with b in G1. rewrite sgn_neg in G0 by (meanx; lra). rewrite sgn_pos in G1 by (meanx; lra). subst. reflexivity. }
    subst s. change (scale_cols [-1; 1] fS) with [[-1 * 0; -1 * 1]; [1 * 1; 1 * 0]]. set (u2 := [[-1 * 0; -1 * 1]; [1 * 1; 1 * 0]]).
    assert (O2 : onb 2 u2) by (split; auto; split; [repeat constructor|]; intros a b Ha Hb; two a; two b; cbn; rewrite !dot_cons, !dot_nil_l; lra).
    assert (Q2 : forall a b, fq (lincomb 2 u2 [a; b]) = 2 * (a * a) + 1 * (b * b)) by (intros; unfold fq, u2, lincomb, vadd, vscale, vget; cbn; ring).
    destruct (fit_slopes fitc u2 2 1 [-1 * 0; -1 * 1] [1 * 1; 1 * 0] FC O2 Q2) as [T0 T1]. two k; unfold u2 at 3; [rewrite T0|rewrite T1]; meanx; lra.
Qed.
Example finish_case : exists fitc svd1 d m X f us us1, (1 < length us)%nat /\ finish_pre fitc svd1 m X us us1 /\ Forall (fun x : vec => length x = m) X /\ length f = length X /\ fit_contract d m X f us fitc /\ injective_V (fst (fitc us)) us X.
Proof. exists fFit, (fun _ => fS), 2%nat, 2%nat, fX, (map fq fX), fE, fS. split; [cbn; lia|]. split; [apply f_pre, fFit_ok|]. split; [repeat constructor|]. split; [reflexivity|]. split; [apply fFit_ok|apply fV_inj]. Qed.

(* ---------- one direction ---------- *)
Definition gB : tbasis := mkTB monomials 2 1 NoScale.
Definition gq (x : vec) : R := vget x 0 * vget x 0.
Definition gU : list vec := [[1; 0]].
Definition gFit (us : list vec) : tbasis * vec := (gB, [0; 0; 1]).
Lemma gB_ok : basis_ok gB 1.
Proof. split; [apply monomials_ok|]. split; [apply monomials_rec|]. split; auto. split; auto. intros k Hk. cbn. lra. Qed.
Lemma gV : forall a, Vrow gB [a] = [1; a; a * a].
Proof. intros a. unfold Vrow. change (indices gB) with [[0]; [1]; [2]]%nat. cbn. unfold scale. cbn. unfold vget. cbn. repeat (apply f_equal2; [ring|]). reflexivity. Qed.
Lemma gFit_ok : forall X, Forall (fun x => length x = 2%nat) X -> fit_contract 2 2 X (map gq X) gU gFit.
Proof.
  intros X FX us L F O SS. change (length gU) with 1%nat in *. split; [apply gB_ok|]. split; auto. destruct us as [|u [|]]; try discriminate L. apply ls_exact; auto. cbn [fst snd gFit]. unfold mv at 1, vp_V. rewrite map_map. apply map_ext_in. intros x I. assert (Lx : length x = 2%nat) by (rewrite Forall_forall in FX; auto).
  destruct (proj2 (SS u)) as [c [Lc Eu]]; [apply (spans_col 2 [u] 0 F); cbn; lia|]. assert (UU : dot u u = 1) by (apply (O 0%nat 0%nat); cbn; lia). destruct c as [|c [|]]; try discriminate Lc. destruct x as [|x [|y [|]]]; try discriminate Lx.
  assert (E2 : u = [c; 0]) by (rewrite Eu; unfold gU, lincomb, vadd, vscale; cbn; repeat (apply f_equal2; [ring|]); reflexivity). clear Eu. subst u. rewrite !dot_cons, !dot_nil_l in UU. replace (mv [[c; 0]] [x; y]) with [c * x] by (unfold mv; cbn [map]; rewrite !dot_cons, !dot_nil_l; apply f_equal2; [ring|auto]). rewrite gV, !dot_cons, !dot_nil_l. unfold gq, vget. cbn. assert (CC : c * c = 1) by lra. transitivity ((c * c) * (x * x)); [ring|rewrite CC; ring].
Qed.
Lemma gV_inj : forall X, In (-1) (map (fun x => vget x 0) X) -> In 0 (map (fun x => vget x 0) X) -> (exists b, b <> 0 /\ b <> -1 /\ In b (map (fun x => vget x 0) X)) -> Forall (fun x => length x = 2%nat) X -> injective_V gB gU X.
Proof.
  intros X I1 I2 [b [b0 [b1 I3]]] FX c c' L L' E. change (length (indices gB)) with 3%nat in L, L'. destruct c as [|c0 [|c1 [|c2 [|]]]]; try discriminate L. destruct c' as [|d0 [|d1 [|d2 [|]]]]; try discriminate L'.
  assert (A : forall t, In t (map (fun x => vget x 0) X) -> c0 + c1 * t + c2 * (t * t) = d0 + d1 * t + d2 * (t * t)).
  { intros t I. apply in_map_iff in I. destruct I as [x [<- I]]. assert (Lx : length x = 2%nat) by (rewrite Forall_forall in FX; auto). apply (In_nth _ _ []) in I. destruct I as [i [Hi Ex]]. assert (Q : vget (mv (vp_V gB gU X) [c0; c1; c2]) i = vget (mv (vp_V gB gU X) [d0; d1; d2]) i) by (rewrite E; auto). rewrite !mv_get in Q by (rewrite vp_V_len; auto). rewrite !vp_V_nth in Q by auto. rewrite Ex in Q. replace (mv gU x) with [vget x 0] in Q by (rewrite (two_list x Lx); unfold mv, gU; cbn [map]; rewrite !dot_cons, !dot_nil_l; unfold vget; cbn; apply f_equal2; [ring|auto]). rewrite gV, !dot_cons, !dot_nil_l in Q. lra. }
  pose proof (A _ I1) as A1. pose proof (A _ I2) as A2. pose proof (A _ I3) as A3. assert (E0 : c0 = d0) by lra. assert (E1 : c1 - d1 = c2 - d2) by lra. assert (E2 : (c2 - d2) * (b * (1 + b)) = 0) by (replace ((c2 - d2) * (b * (1 + b))) with ((c2 - d2) * b + (c2 - d2) * (b * b)) by ring; rewrite <- E1 at 1; lra).
  apply Rmult_integral in E2. destruct E2 as [E2|E2]; [|exfalso; apply Rmult_integral in E2; destruct E2; lra]. repeat (apply f_equal2; [lra|]). reflexivity.
Qed.
Lemma g_slopes : forall fitc X, fit_contract 2 2 X (map gq X) gU fitc -> Forall (fun x => length x = 2%nat) X -> injective_V gB gU X ->
  profile_slopes (fst (fitc gU)) (snd (fitc gU)) (map (mv gU) X) 0 = mean (map (fun x => 2 * vget x 0) X).
Proof.
  intros fitc X FC FX INJ. assert (F : Forall (fun u => length u = 2%nat) gU) by repeat constructor. assert (O : orthonormal gU) by (intros a b Ha Hb; destruct a as [|]; [|cbn in Ha; lia]; destruct b as [|]; [|cbn in Hb; lia]; cbn; rewrite !dot_cons, !dot_nil_l; lra).
  destruct (FC gU eq_refl F O (fun x => iff_refl _)) as [B1 [D1 LS1]]. destruct (gFit_ok X FX gU eq_refl F O (fun x => iff_refl _)) as [B2 [D2 LS2]].
  assert (E : forall a, poly_eval (fst (fitc gU)) (snd (fitc gU)) [a] = 1 * (a * a)).
  { intro a. pose proof (ridge_fit_unique gB (fst (fitc gU)) 2 1 1 gU gU X (map gq X) [0; 0; 1] (snd (fitc gU)) gB_ok B1 D1 eq_refl eq_refl F F (fun x => iff_refl _) FX ltac:(apply map_length) INJ LS2 LS1 [a; 0] eq_refl) as Q. unfold ridge_eval in Q. replace (mv gU [a; 0]) with [a] in Q by (unfold mv, gU; cbn [map]; rewrite !dot_cons, !dot_nil_l; apply f_equal2; [ring|auto]). rewrite <- Q. unfold poly_eval. rewrite gV, !dot_cons, !dot_nil_l. ring. }
  pose proof (quad_grad1 _ _ 1 B1 (proj1 LS1) E) as G. unfold profile_slopes. rewrite map_map. f_equal. apply map_ext_in. intros x I. assert (Lx : length x = 2%nat) by (rewrite Forall_forall in FX; auto). replace (mv gU x) with [vget x 0] by (rewrite (two_list x Lx); unfold mv, gU; cbn [map]; rewrite !dot_cons, !dot_nil_l; unfold vget; cbn; apply f_equal2; [ring|auto]). rewrite G. unfold vget at 1. cbn. ring.
Qed.
(** an even profile on a symmetric design: np.sign of the zero mean slope replaces the direction by zero *)
Theorem finish_zero_refuted : exists d m X f us, (exists fitc, fit_contract d m X f us fitc /\ injective_V (fst (fitc us)) us X) /\ Forall (fun u => length u = m) us /\ orthonormal us /\
  forall fitc svd1, fit_contract d m X f us fitc -> fst (finish fitc svd1 m true X us) = [vzero m].
Proof.
  set (X := [[-1; 0]; [0; 1]; [1; 0]; [0; 2]]). assert (FX : Forall (fun x => length x = 2%nat) X) by repeat constructor. assert (INJ : injective_V gB gU X) by (apply gV_inj; auto; [left; reflexivity|right; left; reflexivity|exists 1; split; [lra|split; [lra|right; right; left; reflexivity]]]).
  exists 2%nat, 2%nat, X, (map gq X), gU. split; [exists gFit; split; [apply gFit_ok; auto|exact INJ]|]. split; [repeat constructor|]. split; [intros a b Ha Hb; destruct a as [|]; [|cbn in Ha; lia]; destruct b as [|]; [|cbn in Hb; lia]; cbn; rewrite !dot_cons, !dot_nil_l; lra|].
  intros fitc svd1 FC. pose proof (g_slopes fitc X FC FX INJ) as S. unfold finish. change (Nat.ltb 1 (length gU) && true) with false. cbv iota zeta. cbn [fst]. change (seq 0 (length gU)) with [0%nat]. cbn [map]. rewrite slopes_col, S. assert (Z : mean (map (fun x => 2 * vget x 0) X) = 0) by (unfold mean, X, vsum, vget; cbn; lra). rewrite Z, sgn_0. unfold scale_cols, gU, vscale, vzero. cbn. repeat f_equal; ring.
Qed.
(** the hypotheses of [finish_slope]: here the direction is flipped *)
Example finish_slope_case : exists fitc svd1 d m X f u, finish_pre fitc svd1 m X [u] [u] /\ Forall (fun x => length x = m) X /\ length f = length X /\ fit_contract d m X f [u] fitc /\ injective_V (fst (fitc [u])) [u] X /\
  fst (finish fitc svd1 m true X [u]) = [vscale (-1) u].
Proof.
  set (X := [[-1; 0]; [0; 1]; [-2; 0]; [0; 2]]). assert (FX : Forall (fun x => length x = 2%nat) X) by repeat constructor. assert (INJ : injective_V gB gU X) by (apply gV_inj; auto; [left; reflexivity|right; left; reflexivity|exists (-2); split; [lra|split; [lra|right; right; left; reflexivity]]]).
  pose proof (gFit_ok X FX) as FC. pose proof (g_slopes gFit X FC FX INJ) as S. assert (Z : mean (map (fun x => 2 * vget x 0) X) < 0) by (unfold mean, X, vsum, vget; cbn; lra).
  assert (P : finish_pre gFit (fun _ => []) 2 X gU gU). { split; [repeat constructor|]. split; [intros a b Ha Hb; destruct a as [|]; [|cbn in Ha; lia]; destruct b as [|]; [|cbn in Hb; lia]; cbn; rewrite !dot_cons, !dot_nil_l; lra|]. split; [cbn; lia|]. split; auto. intros k Hk. destruct k; [|cbn in Hk; lia]. rewrite S. lra. }
  exists gFit, (fun _ => []), 2%nat, 2%nat, X, (map gq X), [1; 0]. split; auto. split; auto. split; [reflexivity|]. split; auto. split; auto. fold gU.
  destruct (finish_unfold _ _ _ _ _ _ P) as [s [PM [Ls [Gs [E _]]]]]. rewrite E. cbn [fst]. destruct s as [|a [|]]; try discriminate Ls. specialize (Gs 0%nat ltac:(cbn; lia)). change (vget [a] 0) with a in Gs. rewrite S, sgn_neg in Gs by auto. subst a. reflexivity.
Qed.
