(** polyridge.py _finish: rotation onto the singular vectors of the profile gradients, sign flips and the final fit. *)
Require Import Reals Lra Lia List Bool Arith.
From Verif Require Import RVec Num Sums DomModel DomMoreModel SweepProofs HullProofs HullIneqProofs Deriv BasisModel IndexProofs PolyProofs MatLib SpecProofs GrassLib LipModel LipFitProofs PartialProofs SubModel ActiveProofs RidgeModel RidgeProofs TrajProofs PolySpan VarproLib VarproProofs RidgeFitProofs.
Import ListNotations.
Local Open Scope R_scope.

(** V has full column rank *)
Definition injective_V (B : tbasis) (us : list vec) (X : mat) : Prop :=
  forall c c', length c = length (indices B) -> length c' = length (indices B) -> mv (vp_V B us X) c = mv (vp_V B us X) c' -> c = c'.
(** the fitted ridge function depends only on the span of the columns of U, not on U nor on the basis *)
Theorem ridge_fit_unique : forall B B' m n n' us us' X f c c', basis_ok B n -> basis_ok B' n' -> tb_deg B' = tb_deg B -> length us = n -> length us' = n' -> Forall (fun u => length u = m) us -> Forall (fun u => length u = m) us' ->
  same_span m us us' -> Forall (fun x => length x = m) X -> length f = length X -> injective_V B us X -> ls_opt (length (indices B)) (vp_V B us X) f c -> ls_opt (length (indices B')) (vp_V B' us' X) f c' ->
  forall x, length x = m -> ridge_eval B c us x = ridge_eval B' c' us' x.
Proof.
  intros B B' m n n' us us' X f c c' OB OB' HD Lu Lu' FU FU' SS FX Lf INJ LS LS' x Lx. pose proof (varpro_subspace B B' m n n' us us' X f c c' OB OB' HD Lu Lu' FU FU' SS FX Lf LS LS') as RE.
  pose proof LS as [Lc _]. pose proof LS' as [Lc' _].
  destruct (V_change B B' m n n' us us' (x :: X) OB OB' ltac:(lia) Lu Lu' FU (span_members m us' us FU' (fun x => iff_sym (SS x))) ltac:(constructor; auto)) as [T [LT [FT HT]]].
  set (N := length (indices B)) in *. set (e := lincomb N T c'). assert (Le : length e = N) by (apply lincomb_length; auto).
  assert (EQ : forall z, In z (x :: X) -> dot (Vrow B' (mv us' z)) c' = dot (Vrow B (mv us z)) e).
  { intros z Iz. rewrite HT by auto. unfold e. rewrite (dot_lincomb_r N) by (auto; lia). rewrite (dot_rs (length T)) by (rewrite ?mv_length; lia). apply rsum_ext. intros k Hk. rewrite mv_get by auto. rewrite (dot_comm (nth k T [])). ring. }
  assert (CE : c = e). { apply INJ; auto. transitivity (mv (vp_V B' us' X) c').
    - unfold vp_residual in RE. apply vec_ext; [rewrite !mv_length, !vp_V_len; auto|]. intros i Hi. rewrite mv_length, vp_V_len in Hi. assert (Q : vget (vsub f (mv (vp_V B us X) c)) i = vget (vsub f (mv (vp_V B' us' X) c')) i) by (rewrite RE; auto). rewrite !vsub_get in Q by (rewrite mv_length, vp_V_len; auto). lra.
    - apply vec_ext; [rewrite !mv_length, !vp_V_len; auto|]. intros i Hi. rewrite mv_length, vp_V_len in Hi. rewrite !mv_get by (rewrite vp_V_len; auto). rewrite !vp_V_nth by auto. apply EQ. right. apply nth_In. auto. }
  unfold ridge_eval, poly_eval. rewrite EQ by (left; auto). rewrite CE. reflexivity.
Qed.

(* ---------- the two transformations of U ---------- *)
Lemma rot_dims : forall m us Ur, Forall (fun u => length u = m) us -> Forall (fun u => length u = m) (map (lincomb m us) Ur).
Proof. intros m us Ur F. apply Forall_forall. intros v I. apply in_map_iff in I. destruct I as [d [<- _]]. apply lincomb_length. auto. Qed.
Lemma rot_orth : forall m us Ur, Forall (fun u => length u = m) us -> orthonormal us -> onb (length us) Ur -> orthonormal (map (lincomb m us) Ur).
Proof.
  intros m us Ur F O OB a b Ha Hb. rewrite map_length in Ha, Hb. pose proof OB as [L [FR OR]]. rewrite !map_lin_nth by auto. rewrite (dot_lincomb2 m) by first [assumption | apply (onb_row (length us)); auto; lia]. apply OR; auto.
Qed.
Lemma lin_lin : forall m us Ur c, Forall (fun u => length u = m) us -> Forall (fun u => length u = length us) Ur -> length c = length Ur -> lincomb m (map (lincomb m us) Ur) c = lincomb m us (lincomb (length us) Ur c).
Proof.
  intros m us Ur c F FR L. pose proof (rot_dims m us Ur F) as FD. assert (LL : length (lincomb (length us) Ur c) = length us) by (apply lincomb_length; auto). apply vec_ext; [rewrite !lincomb_length; auto|]. intros i Hi. rewrite lincomb_length in Hi by auto.
  rewrite !(MatLib.lincomb_get m) by (auto; rewrite map_length; auto). rewrite map_length.
  rewrite (rsum_ext (length Ur) _ (fun k => rsum (length us) (fun j => vget c k * (vget (nth k Ur []) j * vget (nth j us []) i)))).
  - rewrite rsum_swap. apply rsum_ext. intros j Hj. rewrite (MatLib.lincomb_get (length us)) by auto. rewrite <- rsum_scal_r. apply rsum_ext. intros; ring.
  - intros k Hk. rewrite map_lin_nth by auto. rewrite MatLib.lincomb_get by (auto; rewrite Forall_forall in FR; apply FR, nth_In; auto). rewrite <- rsum_scal_l. apply rsum_ext. intros; ring.
Qed.
Lemma rot_span : forall m us Ur, Forall (fun u => length u = m) us -> onb (length us) Ur -> same_span m us (map (lincomb m us) Ur).
Proof.
  intros m us Ur F OB x. pose proof OB as [L [FR OR]]. split; intros [c [Lc ->]].
  - exists (mv Ur c). split; [rewrite mv_length, map_length; auto|]. rewrite lin_lin by (auto; rewrite mv_length; auto). rewrite onb_expand by auto. auto.
  - rewrite map_length in Lc. exists (lincomb (length us) Ur c). split; [apply lincomb_length; auto|]. apply lin_lin; auto.
Qed.
Lemma flip_span : forall m s us, Forall (fun u => length u = m) us -> pm1 s -> length s = length us -> same_span m us (scale_cols s us).
Proof.
  intros m s us F P L x. assert (FS : Forall (fun u => length u = m) (scale_cols s us)) by (apply Forall_forall; intros u I; apply (In_nth _ _ []) in I; destruct I as [k [Hk <-]]; rewrite scale_cols_len in Hk by auto; rewrite scale_cols_nth by auto; rewrite vscale_length; rewrite Forall_forall in F; apply F, nth_In; auto).
  assert (SQ : forall k, (k < length s)%nat -> vget s k * vget s k = 1) by (intros k Hk; apply pm1_get; auto).
  assert (E : forall c, length c = length us -> lincomb m (scale_cols s us) c = lincomb m us (vmul s c)).
  { intros c Lc. assert (LM : length (vmul s c) = length us) by (rewrite vmul_length; lia). apply vec_ext; [rewrite !lincomb_length; auto|]. intros i Hi. rewrite lincomb_length in Hi by auto. rewrite !(MatLib.lincomb_get m) by (auto; rewrite scale_cols_len; auto). rewrite scale_cols_len by auto. apply rsum_ext. intros k Hk. rewrite scale_cols_nth by auto. rewrite vscale_get, vmul_get by lia. ring. }
  split; intros [c [Lc ->]].
  - exists (vmul s c). split; [rewrite vmul_length, scale_cols_len; lia|]. rewrite E by (rewrite vmul_length; lia). f_equal. assert (L1 : length (vmul s c) = length s) by (rewrite vmul_length; lia). assert (L2 : length (vmul s (vmul s c)) = length s) by (rewrite vmul_length; lia). apply vec_ext; [lia|]. intros i Hi. rewrite !vmul_get by lia. rewrite <- Rmult_assoc, SQ by lia. ring.
  - rewrite scale_cols_len in Lc by auto. exists (vmul s c). split; [rewrite vmul_length; lia|]. apply E. auto.
Qed.

(* ---------- _finish ---------- *)
Definition profile_slopes (B : tbasis) (c : vec) (Y : mat) (k : nat) : R := mean (map (fun y => vget (poly_grad B c y) k) Y).
(** _fit_coef is exact least squares (bound None, norm 2) for every orthonormal basis of the subspace spanned by us *)
Definition fit_contract (d m : nat) (X : mat) (f : vec) (us : list vec) (fitc : list vec -> tbasis * vec) : Prop :=
  forall us', length us' = length us -> Forall (fun u => length u = m) us' -> orthonormal us' -> same_span m us us' ->
    basis_ok (fst (fitc us')) (length us) /\ tb_deg (fst (fitc us')) = d /\ ls_opt (length (indices (fst (fitc us')))) (vp_V (fst (fitc us')) us' X) f (snd (fitc us')).
Lemma slopes_col : forall B c Y k, mean (col (map (poly_grad B c) Y) k) = profile_slopes B c Y k.
Proof. intros. unfold profile_slopes, col. rewrite map_map. reflexivity. Qed.
(** rotation matrix [Ur] = svd1 of the gradients at U; [us1] = U Ur (or U); the mean slopes of the refitted profile at the
    coordinates of the samples in U must not vanish *)
Definition finish_pre (fitc : list vec -> tbasis * vec) (svd1 : list vec -> list vec) (m : nat) (X : mat) (us us1 : list vec) : Prop :=
  Forall (fun u => length u = m) us /\ orthonormal us /\
  ((1 < length us)%nat -> exists Ur, svd1 (map (poly_grad (fst (fitc us)) (snd (fitc us))) (map (mv us) X)) = Ur /\ onb (length us) Ur /\ us1 = map (lincomb m us) Ur) /\
  ((length us <= 1)%nat -> us1 = us) /\
  forall k, (k < length us)%nat -> profile_slopes (fst (fitc us1)) (snd (fitc us1)) (map (mv us) X) k <> 0.
Lemma finish_unfold : forall fitc svd1 m X us us1, finish_pre fitc svd1 m X us us1 ->
  exists s, pm1 s /\ length s = length us /\ (forall k, (k < length us)%nat -> vget s k = sgn (profile_slopes (fst (fitc us1)) (snd (fitc us1)) (map (mv us) X) k)) /\
    finish fitc svd1 m true X us = (scale_cols s us1, fitc (scale_cols s us1)) /\ length us1 = length us /\ Forall (fun u => length u = m) us1 /\ orthonormal us1 /\ same_span m us us1.
Proof.
  intros fitc svd1 m X us us1 [F [O [H1 [H2 H3]]]].
  set (s := map (fun k => sgn (profile_slopes (fst (fitc us1)) (snd (fitc us1)) (map (mv us) X) k)) (seq 0 (length us))). exists s.
  assert (G : forall k, (k < length us)%nat -> vget s k = sgn (profile_slopes (fst (fitc us1)) (snd (fitc us1)) (map (mv us) X) k)) by (intros k Hk; unfold s; apply vget_map_seq; auto).
  split; [apply Forall_forall; intros a I; unfold s in I; apply in_map_iff in I; destruct I as [k [<- I]]; apply in_seq in I; apply sgn_pm; apply H3; lia|].
  split; [unfold s; rewrite map_length, seq_length; auto|]. split; auto.
  assert (E : (if Nat.ltb 1 (length us) && true then map (lincomb m us) (svd1 (map (poly_grad (fst (fitc us)) (snd (fitc us))) (map (mv us) X))) else us) = us1 /\ length us1 = length us /\ Forall (fun u => length u = m) us1 /\ orthonormal us1 /\ same_span m us us1).
  { destruct (Nat.ltb_spec 1 (length us)) as [L|L]; cbn [andb].
    - destruct (H1 L) as [Ur [-> [OB ->]]]. split; auto. split; [rewrite map_length; apply OB|]. split; [apply rot_dims; auto|]. split; [apply rot_orth; auto|]. apply rot_span; auto.
    - rewrite (H2 L) in *. repeat split; auto. }
  destruct E as [E R]. split; [|exact R]. unfold finish. cbv zeta. rewrite E. assert (ES : map (fun k => sgn (mean (col (map (poly_grad (fst (fitc us1)) (snd (fitc us1))) (map (mv us) X)) k))) (seq 0 (length us)) = s) by (unfold s; apply map_ext; intro k; rewrite slopes_col; auto). rewrite ES. reflexivity.
Qed.
(** U stays orthonormal with the same span; the ridge function is the one fitted to the U passed in *)
Theorem finish_correct : forall fitc svd1 d m X f us us1, finish_pre fitc svd1 m X us us1 -> Forall (fun x => length x = m) X -> length f = length X -> fit_contract d m X f us fitc -> injective_V (fst (fitc us)) us X ->
  let r := finish fitc svd1 m true X us in
  length (fst r) = length us /\ Forall (fun u => length u = m) (fst r) /\ orthonormal (fst r) /\ same_span m us (fst r) /\
  forall x, length x = m -> ridge_eval (fst (snd r)) (snd (snd r)) (fst r) x = ridge_eval (fst (fitc us)) (snd (fitc us)) us x.
Proof.
  intros fitc svd1 d m X f us us1 P FX Lf FC INJ r. pose proof P as [F [O _]]. destruct (finish_unfold _ _ _ _ _ _ P) as [s [PM [Ls [_ [E [L1 [F1 [O1 S1]]]]]]]]. unfold r. rewrite E. cbn [fst snd]. set (us2 := scale_cols s us1).
  destruct (scale_cols_orth m s us1 PM ltac:(lia) F1 O1) as [F2 O2]. fold us2 in F2, O2. assert (L2 : length us2 = length us) by (unfold us2; rewrite scale_cols_len; lia).
  assert (S2 : same_span m us us2) by (intro x; rewrite (S1 x); apply flip_span; auto; lia). repeat (split; [assumption|]). intros x Lx.
  destruct (FC us eq_refl F O (fun x => iff_refl _)) as [B1 [D1 LS1]]. destruct (FC us2 L2 F2 O2 S2) as [B2 [D2 LS2]]. symmetry. apply (ridge_fit_unique _ _ m (length us) (length us) us us2 X f); auto; congruence.
Qed.
(** for one-dimensional ridge functions the mean slope of the returned profile at the samples is positive *)
Theorem finish_slope : forall fitc svd1 d m X f u, finish_pre fitc svd1 m X [u] [u] -> Forall (fun x => length x = m) X -> length f = length X -> fit_contract d m X f [u] fitc -> injective_V (fst (fitc [u])) [u] X ->
  let r := finish fitc svd1 m true X [u] in 0 < profile_slopes (fst (snd r)) (snd (snd r)) (map (mv (fst r)) X) 0.
Proof.
  intros fitc svd1 d m X f u P FX Lf FC INJ r. pose proof P as [F [O [_ [_ NZ]]]]. destruct (finish_correct fitc svd1 d m X f [u] [u] P FX Lf FC INJ) as [_ [_ [_ [_ EV]]]]. destruct (finish_unfold _ _ _ _ _ _ P) as [s [PM [Ls [Gs [E [_ _]]]]]]. unfold r in *. rewrite E in *. cbn [fst snd] in *.
  destruct s as [|s0 [|]]; try discriminate Ls. specialize (Gs 0%nat ltac:(cbn; lia)). change (vget [s0] 0) with s0 in Gs. specialize (NZ 0%nat ltac:(cbn; lia)). change (scale_cols [s0] [u]) with [vscale s0 u] in *.
  destruct (FC [u] eq_refl F O (fun x => iff_refl _)) as [[FO1 [_ [N1 [_ _]]]] [_ [LS1 _]]]. assert (SS : s0 * s0 = 1) by (apply (pm1_get [s0] 0); auto; cbn; lia).
  destruct (scale_cols_orth m [s0] [u] PM eq_refl F O) as [F2 O2]. destruct (FC [vscale s0 u] eq_refl F2 O2 (flip_span m [s0] [u] F PM eq_refl)) as [[FO2 [_ [N2 [_ _]]]] [_ [LS2 _]]].
  cbn [length] in N1, N2. set (B1 := fst (fitc [u])) in *. set (c1 := snd (fitc [u])) in *. set (B2 := fst (fitc [vscale s0 u])) in *. set (c2 := snd (fitc [vscale s0 u])) in *.
  assert (Lu : length u = m) by (inversion F; auto). assert (UU : dot u u = 1) by (apply (O 0%nat 0%nat); cbn; lia).
  assert (PE : forall y, poly_eval B2 c2 [s0 * y] = poly_eval B1 c1 [y]). { intro y. specialize (EV (vscale y u) ltac:(rewrite vscale_length; auto)). unfold ridge_eval, mv in EV. cbn [map] in EV. rewrite dot_vscale_l, !dot_vscale_r, UU in EV. replace (s0 * (y * 1)) with (s0 * y) in EV by ring. rewrite Rmult_1_r in EV. exact EV. }
  assert (PG : forall y, vget (poly_grad B2 c2 [s0 * y]) 0 = s0 * vget (poly_grad B1 c1 [y]) 0).
  { intro y. pose proof (poly_dir B2 c2 [s0 * y] [s0] FO2 ltac:(cbn; lia) ltac:(cbn; lia) ltac:(lia) LS2) as D2. pose proof (poly_dir B1 c1 [y] [1] FO1 ltac:(cbn; lia) ltac:(cbn; lia) ltac:(lia) LS1) as D1.
    assert (D3 : derivable_pt_lim (fun t => poly_eval B1 c1 (vadd [y] (vscale t [1]))) 0 (dot (poly_grad B2 c2 [s0 * y]) [s0])). { eapply d_ext; [|reflexivity|exact D2]. intro t. unfold vadd, vscale. cbn. rewrite <- PE. f_equal. f_equal. ring. }
    pose proof (uniqueness_limite _ _ _ _ D1 D3) as Q. assert (X1 : forall g a, length g = 1%nat -> dot g [a] = vget g 0 * a) by (intros g a Lg; destruct g as [|g0 [|]]; try discriminate Lg; rewrite dot_cons, dot_nil_l; unfold vget; cbn; ring).
    rewrite !X1 in Q by (rewrite poly_grad_len; auto). rewrite <- (Rmult_1_l (vget (poly_grad B2 c2 [s0 * y]) 0)), <- SS. rewrite Rmult_assoc, (Rmult_comm s0 (vget (poly_grad B2 c2 [s0 * y]) 0)), <- Q. ring. }
  assert (PS : profile_slopes B2 c2 (map (mv [vscale s0 u]) X) 0 = s0 * profile_slopes B1 c1 (map (mv [u]) X) 0).
  { unfold profile_slopes, mean. rewrite !map_map, !map_length. unfold Rdiv. rewrite <- Rmult_assoc. f_equal. rewrite (map_ext (fun x => vget (poly_grad B2 c2 (mv [vscale s0 u] x)) 0) (fun x => s0 * vget (poly_grad B1 c1 (mv [u] x)) 0)).
    - rewrite !vsum_rsum, !map_length, <- rsum_scal_l. apply rsum_ext. intros i Hi. rewrite !(mapr_get _ _ X i []) by auto. auto.
    - intro x. unfold mv. cbn [map]. rewrite dot_vscale_l. apply PG. }
  rewrite PS, Gs. set (q := profile_slopes B1 c1 (map (mv [u]) X) 0) in *. rewrite sgn_abs. apply Rabs_pos_lt. auto.
Qed.
